(** Invariant of the MPI worker pool under every schedule. *)
Set Warnings "-notation-overridden,-ambiguous-paths".
From mathcomp Require Import all_ssreflect zify.
From Verif Require Import Res ResFacts OMap OMapFacts OMapPerm Store StoreSpec StoreProofs FilesProofs
  Pool PoolProofs Standalone StandaloneSpec Account StandaloneProofs Mpi MpiSpec MpiNode.

Set Implicit Arguments.
Unset Strict Implicit.
Unset Printing Implicit Defensive.

(** ** The observations *)
Definition seen (l : seq (nat * (nat * block))) (i d : nat) : seq block := at_dir (of_proc l i) d.

Lemma of_proc_cat l l' i : of_proc (l ++ l') i = of_proc l i ++ of_proc l' i.
Proof. by rewrite /of_proc filter_cat map_cat. Qed.

Lemma of_all_cat l l' : of_all (l ++ l') = of_all l ++ of_all l'.
Proof. exact: map_cat. Qed.

Lemma seen_cat l l' i d : seen (l ++ l') i d = seen l i d ++ seen l' i d.
Proof. by rewrite /seen of_proc_cat at_dir_cat. Qed.

Lemma of_proc_pair j d (bs : seq block) i : of_proc [seq (j, (d, b)) | b <- bs] i =
  if j == i then [seq (d, b) | b <- bs] else [::].
Proof.
rewrite /of_proc filter_map -map_comp /=; case: eqP => [->|Hj].
  by rewrite (eq_filter (a2 := predT)) ?filter_predT // => b /=; rewrite eqxx.
by rewrite (eq_filter (a2 := pred0)) ?filter_pred0 // => b /=; apply/eqP.
Qed.

Lemma of_all_pair j d (bs : seq block) : of_all [seq (j, (d, b)) | b <- bs] = [seq (d, b) | b <- bs].
Proof. by rewrite /of_all -map_comp. Qed.

Lemma seen_pair j d bs i d' : seen [seq (j, (d, b)) | b <- bs] i d' = if (j == i) && (d == d') then bs else [::].
Proof. by rewrite /seen of_proc_pair; case: eqP => //= _; rewrite at_dir_pair. Qed.

Lemma seen_rcons l j d b i d' : seen (rcons l (j, (d, b))) i d' =
  seen l i d' ++ (if (j == i) && (d == d') then [:: b] else [::]).
Proof. by rewrite -cats1 seen_cat (seen_pair j d [:: b]). Qed.

Lemma seen_subseq l i d : subseq (seen l i d) (at_dir (of_all l) d).
Proof.
rewrite /seen /at_dir /of_proc /of_all !filter_map -!map_comp; apply: map_subseq.
rewrite -filter_predI; elim: l => [|x l IH] //=.
case: (x.2.1 == d) => /=; last by [].
by case: (x.1 == i); [rewrite eqxx | exact: subseq_trans IH (subseq_cons _ _)].
Qed.

(** ** Position of the master *)
Definition from_wait (k : caller) : bool := if k is FromWait _ then true else false.
Definition mclosing (x : mpc) : bool := if x is (QShut _ | QShutNotify _ | QJoin _ | QDone) then true else false.
Definition mode_of (x : mpc) (i : nat) : mode :=
  if i == 0 then Empty else
  match x with
  | QFin ix k => if from_wait k && (i < ix) then Empty else Free
  | QFinRecv ix k => if i == ix then Ask MFinished else if from_wait k && (i < ix) then Empty else Free
  | QReadyRecv ix _ => if i == ix then Ask MReady else Free
  | QCheck _ => Empty
  | QSaveRecv ix k => if i == ix then Ask MSave else if delay k then Free else Empty
  | QSave _ k | QWriteStore _ k _ _ | QWriteRecord _ k _ | QAfter k => if delay k then Free else Empty
  | QShut _ | QShutNotify _ | QJoin _ | QDone => Closed
  | _ => Free
  end.
Definition mcmd (k : caller) : cmd := match k with FromFill b => CAssign b | FromWait k => cmd_of k end.
Definition mtodo (x : mpc) (cs : seq cmd) : seq cmd :=
  match x with
  | QDelay b | QContains b | QReady _ b | QReadyRecv _ b | QIdle b | QHand b => CAssign b :: cs
  | QFin _ k | QFinRecv _ k => mcmd k :: cs
  | QCheck k | QSave _ k | QSaveRecv _ k | QWriteStore _ k _ _ | QWriteRecord _ k _ | QAfter k => cmd_of k :: cs
  | _ => cs
  end.
Definition mnotif (x : mpc) (i : nat) : seq block := if x is QNotify _ b then if i == 0 then [:: b] else [::] else [::].
Definition minfl (x : mpc) (i : nat) : seq block :=
  match x with QWriteStore ix _ r _ | QWriteRecord ix _ r => if i == ix then r else [::] | _ => [::] end.
Definition mquiet (x : mpc) : bool :=
  match x with
  | QSave _ k | QSaveRecv _ k | QWriteStore _ k _ _ | QWriteRecord _ k _ | QAfter k => ~~ delay k
  | _ => mclosing x
  end.
Definition mclean (x : mpc) (i : nat) : bool :=
  match x with
  | QSave ix k | QSaveRecv ix k => ~~ delay k && (i < ix)
  | QWriteStore ix k _ _ | QWriteRecord ix k _ => ~~ delay k && (i <= ix)
  | QAfter k => ~~ delay k
  | _ => mclosing x
  end.

(** The mode may be forgotten. *)
Definition weaker (q q' : mode) : Prop := q' = q \/ q = Empty /\ q' = Free.
Lemma weaker_ok contrib cfg c hd rep sv g n q q' w : weaker q q' ->
  node_ok contrib cfg c hd rep sv g n q w -> node_ok contrib cfg c hd rep sv g n q' w.
Proof. by case=> [->|[-> ->]] //; exact: node_weak. Qed.

Section Inv.
Variable contrib : nat -> block -> store.
Hypothesis Hmap : forall c b, is_map (contrib c b).
Variables (jobs : seq job) (F0 : seq file).
Hypothesis Hjobs : jobs_wf jobs.
Local Notation sums := (sums contrib).
Local Notation num s := (size (m_nodes s)).

Definition cfg_of (s : mstate) (c : nat) : option nat := if m_store s is Some _ then Some c else None.

Variant mlink (s : mstate) (N : seq file) (past : seq job) (d c : nat) (P rest : seq block) (fut : seq job) : Prop :=
  | MNoJob of jobs = fut & past = [::] & P = [::] & rest = [::] & m_store s = None &
      N = [::] & m_handed s = [::] & m_reported s = [::] & m_saved s = [::] &
      forall i, i < num s -> p_done (n_proc (get_node s i)) = [::]
  | MJob of jobs = past ++ (d, c, P ++ rest) :: fut & m_store s = Some (d, read_records F0 d).

(** What is known about a configuration that has been left. *)
Definition mpast_ok (s : mstate) (j : job) : Prop :=
  at_dir (of_all (m_handed s)) j.1.1 = remaining F0 j /\
  forall i, i < num s -> let h := seen (m_handed s) i j.1.1 in
  [/\ perm_eq h (seen (m_reported s) i j.1.1), perm_eq h (done_at (n_proc (get_node s i)) j.1.2) &
      perm_eq h (seen (m_saved s) i j.1.1)].

(** Every file and observation belongs to a configuration that was started and to a process, and complete files are
    consistent. *)
Definition obs_ok (n : nat) (st : seq (nat * nat)) (x : nat * (nat * block)) : bool :=
  (x.1 < n) && (x.2.1 \in [seq y.1 | y <- st]).
Definition mtrack (s : mstate) (N : seq file) (st : seq (nat * nat)) : Prop :=
  [/\ all (obs_ok (num s) st) (m_handed s), all (obs_ok (num s) st) (m_reported s), all (obs_ok (num s) st) (m_saved s),
      (forall i, i < num s -> all (fun x => x.2 \in [seq Some y.2 | y <- st]) (p_done (n_proc (get_node s i)))) &
      forall f, List.In f N -> exists c, (f_dir f, c) \in st /\
        forall r, f_record f = Some r -> is_set r /\ sums c r (f_store f)].

Definition mflight (s : mstate) (N : seq file) (d c : nat) : Prop :=
  match m_pc s with
  | QWriteStore ix _ r st => [/\ ix < num s, isSome (m_store s), is_set r & sums c r st]
  | QWriteRecord ix _ r => ix < num s /\ exists N' st, [/\ N = rcons N' (File d st None), is_set r & sums c r st]
  | QFin _ k => if k is FromFill b then b \notin recorded F0 d else True
  | QFinRecv ix k => 0 < ix < num s /\ if k is FromFill b then b \notin recorded F0 d else True
  | QReady _ b => b \notin recorded F0 d
  | QReadyRecv ix b => 0 < ix < num s /\ b \notin recorded F0 d
  | QIdle b => b \notin recorded F0 d
  | QHand b => b \notin recorded F0 d /\ 0 < size (m_ocl s) + size (m_cpu s)
  | QSave ix _ => 0 < ix -> isSome (m_store s)
  | QSaveRecv ix _ => 0 < ix < num s /\ isSome (m_store s)
  | _ => True
  end.

Record minv (s : mstate) (N : seq file) (past : seq job) (d c : nat) (P rest : seq block) (fut : seq job) : Prop := MkMinv
  { j_link : mlink s N past d c P rest fut;
    j_files : m_files s = F0 ++ N;
    j_prog : if mclosing (m_pc s) then [/\ rest = [::], fut = [::] & m_prog s = [::]]
             else mtodo (m_pc s) (m_prog s) = assigns rest fut;
    j_nodes : forall i, i < num s ->
      node_ok contrib (cfg_of s c) c (seen (m_handed s) i d) (seen (m_reported s) i d)
        (seen (m_saved s) i d ++ minfl (m_pc s) i) (count_mem i (m_ocl s)) (count_mem i (m_cpu s))
        (mode_of (m_pc s) i) (get_node s i);
    j_queues : [/\ 0 < num s, all (fun i => i < num s) (m_ocl s) & all (fun i => i < num s) (m_cpu s)];
    j_handed : at_dir (of_all (m_handed s)) d = remaining F0 (d, c, P);
    j_saved : forall d', recorded N d' = at_dir (of_all (m_saved s)) d';
    j_asg : forall i, is_set (nth [::] (m_asg s) i) /\
      perm_eq (seen (m_handed s) i d) (nth [::] (m_asg s) i ++ mnotif (m_pc s) i ++ seen (m_reported s) i d);
    j_flight : mflight s N d c;
    j_quiet : mquiet (m_pc s) -> forall i, i < num s -> perm_eq (seen (m_handed s) i d) (seen (m_reported s) i d);
    j_clean : forall i, i < num s -> mclean (m_pc s) i ->
      perm_eq (seen (m_handed s) i d) (seen (m_saved s) i d ++ minfl (m_pc s) i);
    j_past : forall j, j \in past -> mpast_ok s j;
    j_track : mtrack s N (rcons [seq j.1 | j <- past] (d, c)) }.

Definition mgood (s : mstate) : Prop := exists N past d c P rest fut, minv s N past d c P rest fut.

Lemma mlink_uniq s N past d c P rest fut : mlink s N past d c P rest fut -> uniq (remaining F0 (d, c, P)).
Proof.
move=> H; apply: filter_uniq => /=.
by case: H => [_ _ ->|HJ _] //; have [H _] := job_uniq Hjobs HJ; move: H; rewrite cat_uniq => /and3P[].
Qed.

Lemma seen_uniq s N past d c P rest fut i : minv s N past d c P rest fut -> uniq (seen (m_handed s) i d).
Proof.
move=> I; apply: (subseq_uniq (seen_subseq _ _ _)); rewrite (j_handed I).
exact: (mlink_uniq (j_link I)).
Qed.

Lemma cfg_cases s N past d c P rest fut i : minv s N past d c P rest fut ->
  cfg_of s c = Some c \/ cfg_of s c = None /\ seen (m_handed s) i d = [::].
Proof.
move=> I; case: (j_link I) => [L1 L2 L3 L4 L5 L6 L7|L1 L2]; last by left; rewrite /cfg_of L2.
by right; rewrite /cfg_of L5 L7.
Qed.

(** ** Replacing one process *)
Lemma size_set s i w : i < num s -> num (set_node s i w) = num s.
Proof. by move=> Hi; rewrite /= size_set_nth; apply/maxn_idPr. Qed.

Lemma get_set s i w j : get_node (set_node s i w) j = if j == i then w else get_node s j.
Proof. by rewrite /get_node /= nth_set_nth. Qed.

Lemma set_same s i : i < num s -> set_node s i (get_node s i) = s.
Proof.
move=> Hi; rewrite /set_node /get_node.
suff -> : set_nth node0 (m_nodes s) i (nth node0 (m_nodes s) i) = m_nodes s by case: (s).
by elim: (m_nodes s) i Hi => [|w l IH] [|i] //= Hi; rewrite IH.
Qed.

(** Steps that change one process, the idle queues and the position. *)
Section Move.
Variables (s : mstate) (N : seq file) (past : seq job) (d c : nat) (P rest : seq block) (fut : seq job).
Variables (ix : nat) (w : node) (ocl cpu : seq nat) (x : mpc) (cs : seq cmd).
Hypothesis I : minv s N past d c P rest fut.
Hypothesis Hix : ix < num s.
Hypothesis Hcl : mclosing x = mclosing (m_pc s).
Hypothesis Hcs : mclosing x -> cs = m_prog s.
Hypothesis Htodo : mtodo x cs = mtodo (m_pc s) (m_prog s).
Hypothesis Hnode : node_ok contrib (cfg_of s c) c (seen (m_handed s) ix d) (seen (m_reported s) ix d)
  (seen (m_saved s) ix d ++ minfl x ix) (count_mem ix ocl) (count_mem ix cpu) (mode_of x ix) w.
Hypothesis Hdone : p_done (n_proc w) = p_done (n_proc (get_node s ix)).
Hypothesis Hocl : all (fun i => i < num s) ocl.
Hypothesis Hcpu : all (fun i => i < num s) cpu.
Hypothesis Hcnt : forall i, i != ix -> count_mem i ocl = count_mem i (m_ocl s) /\ count_mem i cpu = count_mem i (m_cpu s).
Hypothesis Hmode : forall i, i < num s -> i != ix -> minfl x i = minfl (m_pc s) i /\ weaker (mode_of (m_pc s) i) (mode_of x i).
Hypothesis Hnot : forall i, mnotif x i = mnotif (m_pc s) i.
Let s' := mgoto (mset_prog (mset_ocl (mset_cpu (set_node s ix w) cpu) ocl) cs) x.
Hypothesis Hfl : mflight s' N d c.
Hypothesis Hq : mquiet x -> forall i, i < num s -> perm_eq (seen (m_handed s) i d) (seen (m_reported s) i d).
Hypothesis Hc : forall i, i < num s -> mclean x i -> perm_eq (seen (m_handed s) i d) (seen (m_saved s) i d ++ minfl x i).

Lemma minv_move : minv s' N past d c P rest fut.
Proof.
have Hsz : num s' = num s by exact: size_set.
have Hget i : get_node s' i = if i == ix then w else get_node s i by exact: get_set.
have Hdn i : p_done (n_proc (get_node s' i)) = p_done (n_proc (get_node s i)).
  by rewrite Hget; case: eqP => [->|].
case: I => [I1 I2 I3 I4 I5 I6 I7 I8 I9 I10 I11 I12 I13]; split; rewrite ?Hsz //.
- case: I1 => *; [apply: MNoJob|apply: MJob] => //= i; rewrite Hsz Hdn; auto.
- by rewrite /= Hcl; case: ifP I3 => // Hx; [rewrite -Hcs ?Hcl|rewrite Htodo].
- move=> i Hi; rewrite Hget /=; case: eqP => [->|/eqP Hne] //.
  have [E1 E2] := Hcnt Hne; have [E3 E4] := Hmode Hi Hne.
  rewrite E1 E2 E3; exact: weaker_ok E4 (I4 i Hi).
- by case: I5.
- by move=> i; rewrite /= Hnot; exact: I8.
- move=> j Hj; have [K1 K2] := I12 j Hj; split=> // i; rewrite Hsz => Hi.
  by have [J1 J2 J3] := K2 i Hi; split=> //; rewrite /done_at Hdn.
- have [K1 K2 K3 K4 K5] := I13; split; rewrite ?Hsz //.
  by move=> i Hi; rewrite Hdn; exact: K4.
Qed.
End Move.

(** Steps that only move the master. *)
Lemma minv_goto s N past d c P rest fut cs x : minv s N past d c P rest fut ->
  mclosing x = mclosing (m_pc s) -> (mclosing x -> cs = m_prog s) -> mtodo x cs = mtodo (m_pc s) (m_prog s) ->
  (forall i, minfl x i = minfl (m_pc s) i) -> (forall i, i < num s -> weaker (mode_of (m_pc s) i) (mode_of x i)) ->
  (forall i, mnotif x i = mnotif (m_pc s) i) -> mflight (mgoto (mset_prog s cs) x) N d c ->
  (mquiet x -> forall i, i < num s -> perm_eq (seen (m_handed s) i d) (seen (m_reported s) i d)) ->
  (forall i, i < num s -> mclean x i -> perm_eq (seen (m_handed s) i d) (seen (m_saved s) i d ++ minfl x i)) ->
  minv (mgoto (mset_prog s cs) x) N past d c P rest fut.
Proof.
move=> I H1 H2 H3 H4 H5 H6 H7 H8 H9; have [Hn Ho Hc] := j_queues I.
have := @minv_move s N past d c P rest fut 0 (get_node s 0) (m_ocl s) (m_cpu s) x cs I Hn H1 H2 H3.
have -> : mset_ocl (mset_cpu (set_node s 0 (get_node s 0)) (m_cpu s)) (m_ocl s) = s by rewrite set_same //; case: (s).
apply=> // [|i Hi _]; last by split=> //; exact: H5.
by rewrite H4; apply: weaker_ok (j_nodes I Hn); exact: H5.
Qed.
(** ** Steps inside a process *)
Lemma minv_inside s N past d c P rest fut i w : minv s N past d c P rest fut -> i < num s ->
  node_ok contrib (cfg_of s c) c (seen (m_handed s) i d) (seen (m_reported s) i d)
    (seen (m_saved s) i d ++ minfl (m_pc s) i) (count_mem i (m_ocl s)) (count_mem i (m_cpu s))
    (mode_of (m_pc s) i) w ->
  (p_done (n_proc w) = p_done (n_proc (get_node s i)) \/
   cfg_of s c = Some c /\ exists b, p_done (n_proc w) = rcons (p_done (n_proc (get_node s i))) (b, Some c)) ->
  minv (set_node s i w) N past d c P rest fut.
Proof.
move=> I Hi Hw [Hd|[Hc [b Hd]]].
  have [Hn Ho Hcp] := j_queues I.
  have := @minv_move s N past d c P rest fut i w (m_ocl s) (m_cpu s) (m_pc s) (m_prog s) I Hi erefl (fun _ => erefl) erefl Hw Hd.
  have -> : mgoto (mset_prog (mset_ocl (mset_cpu (set_node s i w) (m_cpu s)) (m_ocl s)) (m_prog s)) (m_pc s) = set_node s i w.
    by [].
  apply=> //; try exact: (j_quiet I); try exact: (j_clean I).
    by move=> j _ _; split=> //; left.
  by have := j_flight I; rewrite /mflight size_set.
have Hsz := size_set w Hi.
case: (I) => [I1 I2 I3 I4 I5 I6 I7 I8 I9 I10 I11 I12 I13].
case: I1 => [L1 L2 L3 L4 L5|L1 L2]; first by move: Hc; rewrite /cfg_of L5.
split; rewrite ?Hsz //.
- exact: MJob.
- by move=> j Hj; rewrite get_set; case: eqP => [->|_] //; exact: I4.
- by move: I9; rewrite /mflight /= -/(set_node s i w) Hsz.
- move=> j Hj; have [K1 K2] := I12 j Hj; split=> // k; rewrite Hsz => Hk.
  have [J1 J2 J3] := K2 k Hk; split=> //; rewrite get_set; case: eqP => [Ek|] //.
  rewrite /done_at Hd filter_rcons /=; have -> : (Some c == Some j.1.2) = (c == j.1.2) by [].
  by rewrite (negbTE (job_par Hjobs L1 Hj)) -Ek.
- have [K1 K2 K3 K4 K5] := I13; split; rewrite ?Hsz //.
  move=> k Hk; rewrite get_set; case: eqP => [Ek|_]; last exact: K4.
  by rewrite Hd all_rcons K4 // andbT /= map_rcons mem_rcons inE eqxx.
Qed.

(** ** Reporting *)
Lemma mreport_ok i l K s : is_set (nth [::] (m_asg s) i) -> perm_eq (nth [::] (m_asg s) i) (l ++ K) ->
  exists A, [/\ foldM (mfinished i) s l =
      Ok (mset_reported (mset_asg s A) (m_reported s ++ [seq (i, (m_dir s, b)) | b <- l])),
    is_set (nth [::] A i), perm_eq (nth [::] A i) K & forall j, j != i -> nth [::] A j = nth [::] (m_asg s) j].
Proof.
elim: l s => [|b l IH] s Hs Hp /=.
  by exists (m_asg s); rewrite cats0; split=> //; case: (s).
set a := nth _ _ _ in Hs Hp.
have Hb : b \in a by rewrite (perm_mem Hp) inE eqxx.
rewrite /mfinished (os_memE block_total) // Hb /=.
set s1 := mset_reported _ _.
have Ea : nth [::] (m_asg s1) i = os_erase block_lt a b by rewrite /= nth_set_nth /= eqxx.
have [||A [H1 H2 H3 H4]] := IH s1; rewrite ?Ea.
- exact: (os_wf_erase block_total).
- have := os_erase_perm block_total Hs Hb; rewrite perm_sym => H.
  by have := perm_trans H Hp; rewrite /= perm_cons.
exists A; split=> //; last by move=> j Hj; rewrite H4 //= nth_set_nth /= (negbTE Hj).
by rewrite H1 /s1 /mset_reported /mset_asg /= cat_rcons.
Qed.

Lemma minv_report s N past d c P rest fut ix w bs x : minv s N past d c P rest fut -> ix < num s ->
  mclosing x = false -> mclosing (m_pc s) = false -> mtodo x (m_prog s) = mtodo (m_pc s) (m_prog s) ->
  node_ok contrib (cfg_of s c) c (seen (m_handed s) ix d) (seen (m_reported s) ix d ++ bs)
    (seen (m_saved s) ix d) (count_mem ix (m_ocl s)) (count_mem ix (m_cpu s)) (mode_of x ix) w ->
  (exists K, perm_eq (seen (m_handed s) ix d) (bs ++ K ++ seen (m_reported s) ix d)) ->
  p_done (n_proc w) = p_done (n_proc (get_node s ix)) ->
  (forall i, minfl x i = [::] /\ minfl (m_pc s) i = [::]) ->
  (forall i, i < num s -> i != ix -> weaker (mode_of (m_pc s) i) (mode_of x i)) ->
  (forall i, mnotif x i = [::] /\ mnotif (m_pc s) i = [::]) ->
  mflight (mgoto s x) N d c -> mquiet x = false -> (forall i, mclean x i = false) ->
  exists2 s', foldM (mfinished ix) (set_node s ix w) bs = Ok s' & minv (mgoto s' x) N past d c P rest fut.
Proof.
move=> I Hix Hx Hpc Htodo Hw [K HK] Hdone Hinfl Hmode Hnot Hfl Hq Hc.
have Hsz := size_set w Hix.
have Hdn i : p_done (n_proc (get_node (set_node s ix w) i)) = p_done (n_proc (get_node s i)).
  by rewrite get_set; case: eqP => [->|].
case: (I) => [I1 I2 I3 I4 I5 I6 I7 I8 I9 I10 I11 I12 I13].
have [Ha1 Ha2] := I8 ix; rewrite (Hnot ix).2 /= in Ha2.
have Hp : perm_eq (nth [::] (m_asg s) ix) (bs ++ K).
  by rewrite -(perm_cat2r (seen (m_reported s) ix d)) -catA -(permPl Ha2).
have [A [H1 H2 H3 H4]] := @mreport_ok ix bs K (set_node s ix w) Ha1 Hp.
exists (mset_reported (mset_asg (set_node s ix w) A) (m_reported s ++ [seq (ix, (m_dir s, b)) | b <- bs])) => //.
set s' := mset_reported _ _ in H1 *.
have Hbs : bs = [::] \/ m_dir s = d.
  case: I1 => [L1 L2 L3 L4 L5 L6 L7|L1 L2]; last by right; rewrite /m_dir L2.
  by left; move: HK; rewrite L7 perm_sym => /perm_nilP; case: (bs).
have Hrep i d' : seen (m_reported s') i d' = seen (m_reported s) i d' ++ (if (ix == i) && (d == d') then bs else [::]).
  rewrite -[m_reported s']/(m_reported s ++ [seq (ix, (m_dir s, b)) | b <- bs]) seen_cat seen_pair.
  by case: Hbs => [->|->] //; rewrite !if_same.
split=> //; rewrite ?Hsz //.
- case: I1 => [L1 L2 L3 L4 L5 L6 L7 L8 L9 L10|L1 L2]; last by apply: MJob.
  apply: MNoJob => //=; last by move=> i; rewrite Hsz Hdn; exact: L10.
  case: Hbs => [->|Ed]; first by rewrite L8.
  by move: HK; rewrite L7 perm_sym => /perm_nilP; rewrite L8; case: (bs).
- by rewrite /= Hx Htodo; move: I3; rewrite Hpc.
- move=> i Hi; rewrite -[get_node _ _]/(get_node (set_node s ix w) i) get_set Hrep (Hinfl i).1 /= cats0.
  rewrite eqxx andbT eq_sym; case: (altP eqP) => [->|Hne] //=; rewrite cats0.
  by have := I4 i Hi; rewrite (Hinfl i).2 cats0; apply: weaker_ok; exact: Hmode.
- move=> i; rewrite Hrep eqxx andbT (Hnot i).1 /= eq_sym; case: (altP eqP) => [->|Hne].
    by split=> //; rewrite -/s' /=; apply: (perm_trans HK); rewrite perm_catC -catA perm_cat // perm_sym.
  by have := I8 i; rewrite cats0 (Hnot i).2 /= H4.
- by move: Hfl; rewrite /mflight /= -/(set_node s ix w) Hsz.
- by rewrite /= Hq.
- by move=> i; rewrite /= Hc.
- move=> j Hj; have [K1 K2] := I12 j Hj; split=> // i; rewrite Hsz => Hi.
  have [J1 J2 J3] := K2 i Hi; split=> //; last by rewrite /done_at Hdn.
  case: I1 => [L1 L2|L1 L2]; first by rewrite L2 in Hj.
  by rewrite Hrep (negbTE (job_dir Hjobs L1 Hj)) andbF cats0.
- have [K1 K2 K3 K4 K5] := I13; split; rewrite ?Hsz //; last by move=> i Hi; rewrite Hdn; exact: K4.
  rewrite all_cat K2 all_map; apply/allP => b Hb; apply/andP; split=> //.
  change (m_dir s \in [seq y.1 | y <- rcons [seq j.1 | j <- past] (d, c)]).
  by case: Hbs => [E|->]; [rewrite E in Hb | rewrite map_rcons mem_rcons inE eqxx].
Qed.
(** ** Handing out a block *)
Lemma minv_give s N past d c P b rest fut i w ocl cpu asg x : minv s N past d c P (b :: rest) fut ->
  m_store s = Some (d, read_records F0 d) -> jobs = past ++ (d, c, P ++ b :: rest) :: fut ->
  i < num s -> b \notin recorded F0 d -> mclosing x = false -> mtodo x (m_prog s) = assigns rest fut ->
  node_ok contrib (Some c) c (rcons (seen (m_handed s) i d) b) (seen (m_reported s) i d)
    (seen (m_saved s) i d) (count_mem i ocl) (count_mem i cpu) (mode_of x i) w ->
  p_done (n_proc w) = p_done (n_proc (get_node s i)) ->
  all (fun i => i < num s) ocl -> all (fun i => i < num s) cpu ->
  (forall j, j != i -> count_mem j ocl = count_mem j (m_ocl s) /\ count_mem j cpu = count_mem j (m_cpu s)) ->
  (forall j, minfl x j = [::] /\ minfl (m_pc s) j = [::]) ->
  (forall j, j < num s -> j != i -> weaker (mode_of (m_pc s) j) (mode_of x j)) ->
  (forall j, is_set (nth [::] asg j) /\ perm_eq (seen (m_handed s) j d ++ (if i == j then [:: b] else [::]))
     (nth [::] asg j ++ mnotif x j ++ seen (m_reported s) j d)) ->
  mquiet x = false -> (forall j, mclean x j = false) ->
  (forall s', m_pc s' = x -> mflight s' N d c) ->
  minv (mgoto (mset_asg (set_node (mset_handed (mset_ocl (mset_cpu s cpu) ocl) (rcons (m_handed s) (i, (d, b)))) i w) asg) x)
    N past d c (rcons P b) rest fut.
Proof.
move=> I L2 L1 Hi Hb Hcl Htodo Hw Hdone Hocl Hcpu Hcnt Hinfl Hmode Hasg Hq Hc Hfl; set s' := mgoto _ _.
have Hsz : num s' = num s by exact: size_set.
have Hget j : get_node s' j = if j == i then w else get_node s j by exact: get_set.
have Hdn j : p_done (n_proc (get_node s' j)) = p_done (n_proc (get_node s j)).
  by rewrite Hget; case: eqP => [->|].
have Hh j d' : seen (m_handed s') j d' = seen (m_handed s) j d' ++ (if (i == j) && (d == d') then [:: b] else [::]).
  by rewrite seen_rcons.
have Ha d' : at_dir (of_all (m_handed s')) d' = at_dir (of_all (m_handed s)) d' ++ (if d == d' then [:: b] else [::]).
  by rewrite /= /of_all map_rcons at_dir_rcons.
case: (I) => [I1 I2 I3 I4 I5 I6 I7 I8 I9 I10 I11 I12 I13]; split; rewrite ?Hsz //.
- by apply: MJob; rewrite //= cat_rcons.
- by rewrite /= Hcl.
- move=> j Hj; rewrite Hget Hh eqxx andbT (Hinfl j).1 cats0 eq_sym; case: (altP eqP) => [->|Hne].
    by rewrite cats1 /cfg_of /= L2.
  have [E1 E2] := Hcnt j Hne; rewrite /= E1 E2 cats0.
  by have := I4 j Hj; rewrite (Hinfl j).2 cats0; apply: weaker_ok; exact: Hmode.
- by case: I5.
- by rewrite Ha eqxx I6 remaining_rcons (negbTE Hb) cats1.
- by move=> j; rewrite Hh eqxx andbT; exact: Hasg.
- exact: Hfl.
- by rewrite /= Hq.
- by move=> j _; rewrite /= Hc.
- move=> j Hj; have [K1 K2] := I12 j Hj; have Hne := negbTE (job_dir Hjobs L1 Hj); split.
    by rewrite Ha Hne cats0.
  move=> k; rewrite Hsz => Hk; rewrite Hh Hne andbF cats0.
  by have [J1 J2 J3] := K2 k Hk; split=> //; rewrite /done_at Hdn.
- have [K1 K2 K3 K4 K5] := I13; split; rewrite ?Hsz //.
    by rewrite all_rcons K1 andbT /obs_ok /= Hi map_rcons mem_rcons inE eqxx.
  by move=> k Hk; rewrite Hdn; exact: K4.
Qed.

(** ** A new configuration *)
Lemma all_started l n past : all (obs_ok n [seq j.1 | j <- past]) l -> forall d i,
  (forall j : job, j \in past -> d != j.1.1) -> seen l i d = [::] /\ at_dir (of_all l) d = [::].
Proof.
move=> /allP H d i Hd.
have Ha : at_dir (of_all l) d = [::].
  rewrite /at_dir /of_all filter_map -map_comp (eq_in_filter (a2 := pred0)) ?filter_pred0 // => x Hx /=.
  have /andP[_ /mapP[y /mapP[j Hj ->] E]] := H x Hx.
  by rewrite E eq_sym; apply: negbTE; exact: Hd.
by split=> //; have := seen_subseq l i d; rewrite Ha subseq0 => /eqP.
Qed.

Lemma minv_switch s N past d c B fut d0 c0 : jobs = past ++ (d, c, B) :: fut -> m_files s = F0 ++ N ->
  m_prog s = assigns B fut -> 0 < num s -> all (fun i => i < num s) (m_ocl s) -> all (fun i => i < num s) (m_cpu s) ->
  (forall i, i < num s -> node_ok contrib (cfg_of s c0) c0 (seen (m_handed s) i d0) (seen (m_reported s) i d0)
     (seen (m_saved s) i d0) (count_mem i (m_ocl s)) (count_mem i (m_cpu s)) Empty (get_node s i)) ->
  (forall i, i < num s -> perm_eq (seen (m_handed s) i d0) (seen (m_reported s) i d0)) ->
  (forall i, i < num s -> perm_eq (seen (m_handed s) i d0) (seen (m_saved s) i d0)) ->
  (forall i, nth [::] (m_asg s) i = [::]) ->
  (forall d', recorded N d' = at_dir (of_all (m_saved s)) d') ->
  (forall j, j \in past -> mpast_ok s j) -> mtrack s N [seq j.1 | j <- past] ->
  let s1 := mset_store s (Some (d, read_records (m_files s) d)) in
  let w := get_node s1 0 in
  minv (mgoto (mset_nodes s1 (nset_proc w (set_config (n_proc w) (Some c)) ::
                              [seq post (MConfig c) w | w <- behead (m_nodes s1)])) QNext) N past d c [::] B fut.
Proof.
move=> HJ HF Hprog Hn Hocl Hcpu Hnode Hq Hc Hasg Hsv Hpast Htr s1 w; set s' := mgoto _ _.
have [T1 T2 T3 T4 T5] := Htr.
have Hd := job_dir Hjobs HJ.
have Hcd x : x \in [seq Some y.2 | y <- [seq j.1 | j <- past]] -> x != Some c.
  by move=> /mapP[y /mapP[j Hj ->] ->]; apply/eqP => -[E]; have := job_par Hjobs HJ Hj; rewrite E eqxx.
have HN f : List.In f N -> f_dir f <> d.
  by move=> /T5[c' [/mapP[j Hj Ej] _]] E; have := Hd j Hj; rewrite -Ej E eqxx.
have Hsz : num s' = num s by rewrite /= size_map size_behead prednK.
have Hget i : i < num s -> get_node s' i = if i == 0 then nset_proc (get_node s i) (set_config (n_proc (get_node s i)) (Some c))
    else post (MConfig c) (get_node s i).
  case: i => [|i] Hi //; rewrite /get_node /= (nth_map node0) ?size_behead ?nth_behead //; lia.
have Hdn i : i < num s -> p_done (n_proc (get_node s' i)) = p_done (n_proc (get_node s i)).
  by move=> Hi; rewrite Hget //; case: ifP.
have Hd0 i : i < num s -> done_at (n_proc (get_node s i)) c = [::].
  move=> Hi; rewrite /done_at (eq_in_filter (a2 := pred0)) ?filter_pred0 // => x Hx.
  by apply: negbTE; apply: Hcd; exact: (allP (T4 i Hi)).
have [S1 A1] : (forall i, seen (m_handed s) i d = [::]) /\ at_dir (of_all (m_handed s)) d = [::].
  by split=> [i|]; [case: (all_started T1 i Hd) | case: (all_started T1 0 Hd)].
have S2 i : seen (m_reported s) i d = [::] by case: (all_started T2 i Hd).
have S3 i : seen (m_saved s) i d = [::] by case: (all_started T3 i Hd).
split; rewrite ?Hsz //.
- by apply: MJob => //=; rewrite HF read_records_cat.
- move=> i Hi; rewrite Hget //= S1 S2 S3.
  have [K1 K2] := node_switch (Hnode i Hi) (Hq i Hi) (Hc i Hi) (Hd0 i Hi).
  by rewrite /mode_of /=; case: ifP.
- by move=> i; rewrite /= Hasg S1 S2.
- move=> j Hj; have [K1 K2] := Hpast j Hj; split=> // i; rewrite Hsz => Hi.
  by have [J1 J2 J3] := K2 i Hi; split=> //; rewrite /done_at Hdn.
- have Hst n l : all (obs_ok n [seq j.1 | j <- past]) l -> all (obs_ok n (rcons [seq j.1 | j <- past] (d, c))) l.
    by apply: sub_all => x /andP[H1 H2]; rewrite /obs_ok H1 mem_started.
  split; rewrite ?Hsz //; try exact: Hst.
    by move=> i Hi; rewrite Hdn //; apply: sub_all (T4 i Hi) => y; apply: mem_startedc.
  by move=> f /T5 [c' [Hc' Hr]]; exists c'; split=> //; rewrite mem_rcons inE Hc' orbT.
Qed.
(** ** The steps of the master *)
Lemma mgoto_prog s x : mgoto (mset_prog s (m_prog s)) x = mgoto s x. Proof. by []. Qed.

Lemma count_nseq_mem (n i j : nat) : count_mem j (nseq n i) = if i == j then n else 0.
Proof. by rewrite count_nseq /=; case: eqP => _; rewrite ?mul1n. Qed.

(** Ready threads are put into the idle queues. *)
Lemma minv_queue s N past d c P rest fut ix w nc no x : minv s N past d c P rest fut -> ix < num s ->
  mclosing x = mclosing (m_pc s) -> mtodo x (m_prog s) = mtodo (m_pc s) (m_prog s) ->
  node_ok contrib (cfg_of s c) c (seen (m_handed s) ix d) (seen (m_reported s) ix d)
    (seen (m_saved s) ix d ++ minfl x ix) (count_mem ix (m_ocl s) + no) (count_mem ix (m_cpu s) + nc) (mode_of x ix) w ->
  p_done (n_proc w) = p_done (n_proc (get_node s ix)) ->
  (forall i, i < num s -> i != ix -> minfl x i = minfl (m_pc s) i /\ weaker (mode_of (m_pc s) i) (mode_of x i)) ->
  (forall i, mnotif x i = mnotif (m_pc s) i) ->
  (forall s', m_pc s' = x -> num s' = num s -> mflight s' N d c) -> mquiet x = false -> (forall i, mclean x i = false) ->
  minv (mgoto (queue_up ix nc no (set_node s ix w)) x) N past d c P rest fut.
Proof.
move=> I Hix Hcl Ht Hw Hd Hm Hn Hf Hq Hc; have [Q1 Q2 Q3] := j_queues I.
have -> : mgoto (queue_up ix nc no (set_node s ix w)) x =
    mgoto (mset_prog (mset_ocl (mset_cpu (set_node s ix w) (m_cpu s ++ nseq nc ix)) (m_ocl s ++ nseq no ix)) (m_prog s)) x by [].
have Hall n : all (fun i => i < num s) (nseq n ix) by rewrite all_nseq Hix orbT.
apply: minv_move => //.
- by rewrite !count_cat !count_nseq_mem !eqxx.
- by rewrite all_cat Q2 Hall.
- by rewrite all_cat Q3 Hall.
- by move=> i Hi; rewrite !count_cat !count_nseq_mem eq_sym (negbTE Hi) !addn0.
- by apply: Hf => //=; exact: size_set.
- by rewrite Hq.
- by move=> i _; rewrite Hc.
Qed.

Lemma minv_main s N past d c P rest fut save : minv s N past d c P rest fut ->
  exists2 s', master_step s save = Ok s' & mgood s'.
Proof.
move=> I; have I' := I; case: I' => [I1 I2 I3 I4 I5 I6 I7 I8 I9 I10 I11 I12 I13].
have out s' : minv s' N past d c P rest fut -> mgood s' by exists N, past, d, c, P, rest, fut.
have [Hn Hocl Hcpu] := I5; have W q : weaker q q by left.
have W' i : weaker (mode_of (m_pc s) i) (mode_of (m_pc s) i) by [].
have K0 := I4 0 Hn; rewrite {1}/mode_of /= in K0.
rewrite /master_step; case Epc: (m_pc s) => [|b|b|ix k|ix k|ix b|ix b|b|b|t b|k|ix k|ix k|ix k r st|ix k r|k|t|t|t|].
- (* QNext *)
  move: I3; rewrite Epc /= => I3.
  case Ep: (m_prog s) => [|[d' c'|b|] cs]; eexists; try reflexivity; apply: out => //;
    by apply: minv_goto; rewrite ?Epc ?Ep // => i; rewrite /mode_of /= ?andbF.
- (* QDelay *)
  eexists; first reflexivity; apply: out; rewrite -mgoto_prog.
  by case: save; apply: minv_goto; rewrite ?Epc // => i; rewrite ?Epc.
- (* QContains *)
  move: I3; rewrite Epc /= => I3; have [rest' Er Ep] := assigns_assign I3.
  case: I1 => [L1 L2 L3 L4|L1 L2]; first by rewrite L4 in Er.
  rewrite L2; eexists; first reflexivity.
  have [Hu Hnil] := job_uniq Hjobs L1.
  have Hb : b <> [::] by move=> E; move/negP: Hnil; apply; rewrite Er E mem_cat inE eqxx orbT.
  rewrite (read_recordsE _ _ Hb); case: ifP => Hin.
    exists N, past, d, c, (rcons P b), rest', fut; split=> //=.
    + by apply: MJob => //=; rewrite L1 Er cat_rcons.
    + by move=> i Hi; have := I4 i Hi; rewrite Epc.
    + by rewrite remaining_rcons Hin.
    + by move=> i; have := I8 i; rewrite Epc.
  apply: out; rewrite -mgoto_prog.
  case Eo: (m_ocl s) => [|j l]; apply: minv_goto; rewrite ?Epc //= /mflight /= ?Hin ?Eo //.
- (* QFin *)
  case: eqP => [Eix|/eqP Hix].
    rewrite /flush_finished; have [F1 F2] := own_finished K0.
    have [||||||||||||s' H1 H2] := @minv_report s N past d c P rest fut 0
      (nset_proc (get_node s 0) (set_finished (n_proc (get_node s 0)) [::])) (p_finished (n_proc (get_node s 0))) (QFin 1 k) I Hn; rewrite ?Epc //.
    * by move: F1; rewrite Epc cats0.
    * by move=> i _ Hi; rewrite /mode_of (negbTE Hi) Eix ltn0 ltnS leqn0 (negbTE Hi).
    * by have := I9; rewrite /mflight /= Epc.
    by rewrite H1; eexists; first reflexivity; apply: out.
  case: ltnP => Hlt; eexists; try reflexivity; apply: out; rewrite -mgoto_prog.
    have Hw : node_ok contrib (cfg_of s c) c (seen (m_handed s) ix d) (seen (m_reported s) ix d)
      (seen (m_saved s) ix d ++ [::]) (count_mem ix (m_ocl s)) (count_mem ix (m_cpu s)) Free (get_node s ix).
      by have := I4 ix Hlt; rewrite Epc /mode_of (negbTE Hix) ltnn andbF.
    apply: (@minv_move s N past d c P rest fut ix _ (m_ocl s) (m_cpu s)) => //; rewrite ?Epc //.
    * by rewrite /mode_of (negbTE Hix) eqxx; exact: node_post.
    * by move=> i Hi Hne; split=> //; rewrite /mode_of (negbTE Hne).
    * by have := I9; rewrite /mflight /= -/(set_node s ix _) Epc size_set // lt0n Hix Hlt.
  case: k Epc I9 => [b|k] Epc; rewrite /mflight Epc => I9; apply: minv_goto; rewrite ?Epc //.
  by move=> i Hi; rewrite /mode_of /= (leq_trans Hi Hlt).
- (* QFinRecv *)
  have := I9; rewrite /mflight Epc => -[/andP[Hix Hlt] Hfl]; have Hne : (ix == 0) = false by lia.
  have Kx := I4 ix Hlt; rewrite {1}/mode_of Hne Epc eqxx cats0 in Kx.
  case Eo: (n_out (get_node s ix)) => [|[nc no|r st|bs] o]; try by eexists; first reflexivity; exact: out.
  have [F1 F2] := node_finished Kx Eo.
  have [||||||||||||s' H1 H2] := @minv_report s N past d c P rest fut ix (nset_out (get_node s ix) o) bs (QFin ix.+1 k) I Hlt; rewrite ?Epc //.
  * by rewrite /mode_of Hne ltnSn andbT; case: (from_wait k) => //; exact: node_weak.
  * move=> i Hi Hi'; rewrite /mode_of; case: eqP => // _; rewrite (negbTE Hi').
    by have -> : (i < ix.+1) = (i < ix) by move/eqP: Hi'; lia.
  by rewrite H1; eexists; first reflexivity; apply: out.
- (* QReady *)
  have Hfl := I9; rewrite /mflight Epc in Hfl.
  case: eqP => [Eix|/eqP Hix].
    have := own_ready K0; case: (flush_ready _) => [p' [nc no]] [F1 F2].
    eexists; first reflexivity; apply: out; apply: minv_queue; rewrite ?Epc //.
    * by move: F1; rewrite Epc.
    * by move=> s' Es' _; rewrite /mflight Es'.
  case: ltnP => Hlt; eexists; try reflexivity; apply: out; rewrite -mgoto_prog; last by apply: minv_goto; rewrite ?Epc.
  have Hw : node_ok contrib (cfg_of s c) c (seen (m_handed s) ix d) (seen (m_reported s) ix d)
      (seen (m_saved s) ix d ++ [::]) (count_mem ix (m_ocl s)) (count_mem ix (m_cpu s)) Free (get_node s ix).
    by have := I4 ix Hlt; rewrite Epc /mode_of (negbTE Hix).
  apply: (@minv_move s N past d c P rest fut ix _ (m_ocl s) (m_cpu s)) => //; rewrite ?Epc //.
  * by rewrite /mode_of (negbTE Hix) eqxx; exact: node_post.
  * by move=> i Hi Hne; split=> //; rewrite /mode_of (negbTE Hne).
  * by rewrite /mflight /= -/(set_node s ix _) size_set // lt0n Hix Hlt.
- (* QReadyRecv *)
  have := I9; rewrite /mflight Epc => -[/andP[Hix Hlt] Hfl]; have Hne : (ix == 0) = false by lia.
  have Kx := I4 ix Hlt; rewrite {1}/mode_of Hne Epc eqxx in Kx.
  case Eo: (n_out (get_node s ix)) => [|[nc no|r st|bs] o]; try by eexists; first reflexivity; exact: out.
  eexists; first reflexivity; apply: out; apply: minv_queue; rewrite ?Epc //.
  * by rewrite /mode_of Hne; apply: node_weak; exact: node_ready Kx Eo.
  * by move=> i Hi Hi'; split=> //; rewrite /mode_of (negbTE Hi').
  * by move=> s' Es' _; rewrite /mflight Es'.
- (* QIdle *)
  have Hfl := I9; rewrite /mflight Epc in Hfl.
  eexists; first reflexivity; apply: out; rewrite -mgoto_prog; case: ifP => Hz; apply: minv_goto; rewrite ?Epc //.
  by rewrite /mflight /=; split=> //; move: Hz; case: (m_cpu s); case: (m_ocl s) => //= *; lia.
- (* QHand *)
  move: I3; rewrite Epc /= => I3; have [rest' Er Ep] := assigns_assign I3.
  case: I1 => [L1 L2 L3 L4|L1 L2]; first by rewrite L4 in Er.
  have := I9; rewrite /mflight Epc => -[Hb Hgc].
  have [o [i [ocl [cpu [E1 E2 E3 Hi]]]]] : exists o i ocl cpu, [/\ 
      match m_ocl s, m_cpu s with
      | i :: ocl, _ => Ok (true, i, mset_ocl s ocl)
      | [::], i :: cpu => Ok (false, i, mset_cpu s cpu)
      | [::], [::] => Undef
      end = Ok (o, i, mset_ocl (mset_cpu s cpu) ocl),
      m_ocl s = (if o then i :: ocl else ocl), m_cpu s = (if o then cpu else i :: cpu) & i < num s].
    case Eo: (m_ocl s) => [|i ocl]; last first.
      by exists true, i, ocl, (m_cpu s); split=> //; move: Hocl; rewrite Eo => /andP[].
    case Ec: (m_cpu s) => [|i cpu]; first by rewrite Eo Ec in Hgc.
    exists false, i, [::], cpu; split=> //; last by move: Hcpu; rewrite Ec => /andP[].
    by rewrite -Eo; case: (s).
  have Edir : m_dir (mset_ocl (mset_cpu s cpu) ocl) = d by rewrite /m_dir /= L2.
  rewrite E1 /= !Edir.
  rewrite -[get_node (mset_handed _ _) i]/(get_node s i).
  have Hbh j : b \notin seen (m_handed s) j d.
    apply/negP => /(mem_subseq (seen_subseq _ _ _)); rewrite I6 mem_filter /= => /andP[_ HbP].
    have [Hu _] := job_uniq Hjobs L1; move: Hu; rewrite Er cat_uniq => /and3P[_ /hasPn H _].
    by have := H b; rewrite inE eqxx => /(_ isT) /negP; apply.
  have HI : minv s N past d c P (b :: rest') fut by rewrite -Er.
  have HJ : jobs = past ++ (d, c, P ++ b :: rest') :: fut by rewrite -Er.
  have Hocl' : all (fun i => i < num s) ocl by move: Hocl; rewrite E2; case: (o) => //= /andP[].
  have Hcpu' : all (fun i => i < num s) cpu by move: Hcpu; rewrite E3; case: (o) => //= /andP[].
  have Hcnt j : j != i -> count_mem j ocl = count_mem j (m_ocl s) /\ count_mem j cpu = count_mem j (m_cpu s).
    by rewrite E2 E3 eq_sym => /negbTE Hj; case: (o) => /=; rewrite Hj.
  have Ec : cfg_of s c = Some c by rewrite /cfg_of L2.
  case: (altP (i =P 0)) => [Ei|Hi0].
    rewrite Ei in E1 E2 E3 Hi Hcnt *.
    have [|||p' [t [A1 A2 A3]]] := own_assign K0 (b := b) (o := o); rewrite ?Ec //.
      by rewrite E2 E3; case: (o); rewrite /= ?eqxx.
    rewrite A1 /=; eexists; first reflexivity.
    exists N, past, d, c, (rcons P b), rest', fut.
    apply: (minv_give (asg := m_asg s) HI) => //.
    * move: A3; rewrite Epc cats0 Ec E2 E3.
      by case: (o) => /=; rewrite ?eqxx.
    * by move=> j; rewrite Epc.
    * by move=> j Hj _; rewrite Epc.
    * move=> j; have [J1] := I8 j; rewrite Epc /= => J2; split=> //.
      rewrite eq_sym; case: eqP => _; rewrite ?cats0 // cats1 perm_rcons perm_sym.
      by rewrite -cat1s perm_catCA /= perm_cons perm_sym.
    * by move=> s' Es'; rewrite /mflight Es'.
  eexists; first reflexivity.
  exists N, past, d, c, (rcons P b), rest', fut.
  apply: (minv_give (asg := set_nth [::] (m_asg s) i (os_insert block_lt (nth [::] (m_asg s) i) b)) HI) => //.
  * rewrite /mode_of (negbTE Hi0); apply: node_give.
    have := I4 i Hi; rewrite Epc cats0 Ec /mode_of (negbTE Hi0) E2 E3.
    by case: (o) => /=; rewrite ?eqxx.
  * by move=> j; rewrite Epc.
  * by move=> j Hj _; rewrite Epc.
  * move=> j; have [J1] := I8 j; rewrite Epc /= => J2; rewrite nth_set_nth /= eq_sym.
    case: eqP => [Ej|_]; last by rewrite cats0.
    rewrite -Ej in J1 J2 *; have Hna : b \notin nth [::] (m_asg s) i.
      by apply: contra (Hbh i) => Hba; rewrite (perm_mem J2) mem_cat Hba.
    split; first exact: (os_wf_insert block_total).
    rewrite cats1 perm_rcons perm_sym; apply: (@perm_trans _ ((b :: nth [::] (m_asg s) i) ++ seen (m_reported s) i d)).
      by rewrite perm_cat2r; exact: (os_insert_perm block_total).
    by rewrite /= perm_cons perm_sym.
  * by move=> s' Es'; rewrite /mflight Es'.
- (* QNotify *)
  have [O1 O2 O3 O4 O5] := own_facts K0.
  have [H1 H2] := notify_ok t O4; eexists; first reflexivity; apply: out.
  have [S1 S2 S3 [S4 S5 S6 S7]] := H2.
  have := @minv_inside s N past d c P rest fut 0 (nset_proc (get_node s 0) (notify (n_proc (get_node s 0)) t)) I Hn.
  case=> [||J1 J2 J3 J4 J5 J6 J7 J8 J9 J10 J11 J12 J13].
  * by rewrite /mode_of eqxx; exact: own_same.
  * by left.
  split=> //.
  + by case: J1 => *; [apply: MNoJob|apply: MJob].
  + by move: J3; rewrite /= Epc.
  + by move=> i Hi; have := J4 i Hi; rewrite /= Epc.
  + move=> i; rewrite /= nth_set_nth /=; have [A1] := I8 i; rewrite Epc /=.
    case: eqP => [->|_] //= A2.
    have Hna : b \notin nth [::] (m_asg s) 0.
      have : uniq (nth [::] (m_asg s) 0 ++ b :: seen (m_reported s) 0 d) by rewrite -(perm_uniq A2); exact: seen_uniq I.
      by rewrite cat_uniq => /and3P[_ /norP[]].
    split; first by apply: (os_wf_insert block_total); have [] := I8 0.
    apply: (perm_trans A2); rewrite perm_sym -cat1s catA perm_cat2r perm_sym cats1 perm_rcons perm_sym.
    by apply: (os_insert_perm block_total) => //; have [] := I8 0.
- (* QCheck *)
  eexists; first reflexivity; apply: out; rewrite -mgoto_prog; case: ifP => Hz; apply: minv_goto; rewrite ?Epc //.
  * by move=> i Hi; rewrite /mode_of /=; case: eqP => // _; case: (delay k); [right|].
  * move=> _ i Hi; have [_] := I8 i; rewrite Epc /=.
    suff -> : nth [::] (m_asg s) i = [::] by [].
    case: (ltnP i (size (m_asg s))) => Hi'; last by rewrite nth_default.
    by apply/nilP; exact: (allP Hz _ (mem_nth _ Hi')).
  * by move=> i Hi /=; rewrite ltn0 andbF.
  * by move=> i Hi; rewrite /mode_of /=; case: eqP => // _; right.
- (* QSave *)
  have Hq : ~~ delay k -> forall i, i < num s -> perm_eq (seen (m_handed s) i d) (seen (m_reported s) i d).
    by move=> Hk; apply: I10; rewrite Epc.
  have Hc i : i < num s -> ~~ delay k && (i < ix) -> perm_eq (seen (m_handed s) i d) (seen (m_saved s) i d).
    by move=> Hi Hk; have := I11 i Hi; rewrite Epc /= Hk cats0 => /(_ isT).
  case: eqP => [Eix|/eqP Hix].
    case: (j_link I) => [L1 L2 L3 L4 L5 L6 L7 L8 L9 L10|L1 L2].
      rewrite L5; eexists; first reflexivity; apply: out; rewrite -mgoto_prog; apply: minv_goto; rewrite ?Epc //.
      by move=> i; rewrite L7 L9.
    rewrite L2 /flush_global /flush_static; have [F1 F2 F3 F4] := own_saved K0; rewrite Epc cats0 in F1 F2 F3 F4.
    eexists; first reflexivity; apply: out; rewrite -mgoto_prog.
    apply: (@minv_move s N past d c P rest fut 0 _ (m_ocl s) (m_cpu s)) => //; rewrite ?Epc //.
    * by move=> i Hi Hne; rewrite /= (negbTE Hne).
    * by rewrite /mflight /= -/(set_node s 0 _) size_set // L2.
    * move=> i Hi /= /andP[Hk]; rewrite leqn0 => /eqP ->; rewrite eqxx; apply: F4; exact: Hq.
  have Hst : isSome (m_store s) by have := I9; rewrite /mflight Epc; apply; rewrite lt0n.
  case: ltnP => Hlt; eexists; try reflexivity; apply: out; rewrite -mgoto_prog; last first.
    apply: minv_goto; rewrite ?Epc // => i Hi /= Hk; rewrite cats0; apply: Hc => //.
    by rewrite Hk (leq_trans Hi Hlt).
  have Hw : node_ok contrib (cfg_of s c) c (seen (m_handed s) ix d) (seen (m_reported s) ix d)
      (seen (m_saved s) ix d ++ [::]) (count_mem ix (m_ocl s)) (count_mem ix (m_cpu s)) Free (get_node s ix).
    have := I4 ix Hlt; rewrite Epc /mode_of (negbTE Hix); case: (delay k) => //; exact: node_weak.
  apply: (@minv_move s N past d c P rest fut ix _ (m_ocl s) (m_cpu s)) => //; rewrite ?Epc //.
  * by rewrite /mode_of (negbTE Hix) eqxx; exact: node_post.
  * by move=> i Hi Hne; split=> //; rewrite /mode_of (negbTE Hne).
  * by rewrite /mflight /= -/(set_node s ix _) size_set // lt0n Hix Hlt.
  * by move=> i Hi; rewrite cats0; exact: Hc.
- (* QSaveRecv *)
  have := I9; rewrite /mflight Epc => -[/andP[Hix Hlt] Hst]; have Hne : (ix == 0) = false by lia.
  have Kx := I4 ix Hlt; rewrite {1}/mode_of Hne Epc eqxx cats0 in Kx.
  case Eo: (n_out (get_node s ix)) => [|[nc no|r st|bs] o]; try by eexists; first reflexivity; exact: out.
  have [F1 F2 F3 F4] := node_saved Kx Eo.
  eexists; first reflexivity; apply: out; rewrite -mgoto_prog.
  apply: (@minv_move s N past d c P rest fut ix _ (m_ocl s) (m_cpu s)) => //; rewrite ?Epc //.
  * rewrite /= eqxx /mode_of Hne; case: (delay k) => //; exact: node_weak.
  * by move=> i Hi Hi'; rewrite /= (negbTE Hi'); split=> //; rewrite /mode_of (negbTE Hi').
  * by rewrite /mflight /= -/(set_node s ix _) size_set.
  * by move=> Hk; apply: I10; rewrite Epc.
  * move=> i Hi /= /andP[Hk]; rewrite leq_eqVlt => /orP[/eqP ->|Hi'].
      by rewrite eqxx; apply: F4; apply: I10; rewrite // Epc.
    have -> : (i == ix) = false by lia.
    by have := I11 i Hi; rewrite Epc /= Hk; apply.
- (* QWriteStore *)
  have := I9; rewrite /mflight Epc => -[Hix HS Hr Hst].
  case: (j_link I) => [L1 L2 L3 L4 L5|L1 L2]; first by rewrite L5 in HS.
  eexists; first reflexivity; rewrite {1}/m_dir L2.
  exists (rcons N (File d st None)), past, d, c, P, rest, fut; split=> //=.
  + exact: MJob.
  + by rewrite I2 rcons_cat.
  + by move: I3; rewrite Epc.
  + by move=> i Hi; have := I4 i Hi; rewrite Epc.
  + by move=> d'; rewrite recorded_rcons /=; case: ifP => _; rewrite cats0 I7.
  + by move=> i; have := I8 i; rewrite Epc.
  + by rewrite /mflight /=; split=> //; exists N, st.
  + by move=> Hq; apply: I10; rewrite Epc.
  + by move=> i Hi Hq; have := I11 i Hi; rewrite Epc; apply.
  + have [K1 K2 K3 K4 K5] := I13; split=> //= f; rewrite -cats1 => /List.in_app_iff[|[<-|//]]; first exact: K5.
    by exists c; split=> //; rewrite mem_rcons inE eqxx.
- (* QWriteRecord *)
  have := I9; rewrite /mflight Epc => -[Hix [N' [st [EN Hr Hst]]]].
  case: (j_link I) => [L1 L2 L3 L4 L5 L6|L1 L2]; first by rewrite L6 in EN; case: (N') EN.
  eexists; first reflexivity; rewrite {1}/m_dir L2 /= I2 EN -rcons_cat complete_last_rcons.
  exists (rcons N' (File d st (Some r))), past, d, c, P, rest, fut.
  have Hs i d' : seen (m_saved s ++ [seq (ix, (d, b)) | b <- r]) i d' =
      seen (m_saved s) i d' ++ (if (ix == i) && (d == d') then r else [::]) by rewrite seen_cat seen_pair.
  split=> //=.
  + exact: MJob.
  + by rewrite rcons_cat.
  + by move: I3; rewrite Epc.
  + move=> i Hi; have := I4 i Hi; rewrite Epc /= Hs eqxx andbT cats0 eq_sym.
    by rewrite /mode_of.
  + move=> d'; rewrite recorded_rcons of_all_cat at_dir_cat of_all_pair at_dir_pair -I7 EN recorded_rcons /=.
    by rewrite if_same cats0.
  + by move=> i; have := I8 i; rewrite Epc.
  + by rewrite /mflight /= L2.
  + by move=> Hq; apply: I10; rewrite Epc.
  + by move=> i Hi; rewrite ltnS cats0 Hs eqxx andbT eq_sym => Hq; have := I11 i Hi; rewrite Epc; apply.
  + move=> j Hj; have [K1 K2] := I12 j Hj; split=> // i Hi; have [J1 J2 J3] := K2 i Hi; split=> //=.
    by rewrite Hs (negbTE (job_dir Hjobs L1 Hj)) andbF cats0.
  + have [K1 K2 K3 K4 K5] := I13; split=> //=.
      rewrite all_cat K3 all_map; apply/allP => b _; by rewrite /obs_ok /= Hix map_rcons mem_rcons inE eqxx.
    move=> f; rewrite -cats1 => /List.in_app_iff[Hf|[<-|//]].
      by apply: K5; rewrite EN -cats1; apply/List.in_app_iff; left.
    by exists c; split; [rewrite mem_rcons inE eqxx | move=> r' [<-]].
- (* QAfter *)
  move: I3; rewrite Epc /=; case: k Epc => [b|d' c'|] Epc /= I3.
  + by eexists; first reflexivity; apply: out; rewrite -mgoto_prog; apply: minv_goto; rewrite ?Epc.
  + have [B [fut' [Er Ef Ep]]] := assigns_config I3.
    have Hq i : i < num s -> perm_eq (seen (m_handed s) i d) (seen (m_reported s) i d) by apply: I10; rewrite Epc.
    have Hc i : i < num s -> perm_eq (seen (m_handed s) i d) (seen (m_saved s) i d).
      by move=> Hi; have := I11 i Hi; rewrite Epc cats0; apply.
    have Hnodes i : i < num s -> node_ok contrib (cfg_of s c) c (seen (m_handed s) i d) (seen (m_reported s) i d)
       (seen (m_saved s) i d) (count_mem i (m_ocl s)) (count_mem i (m_cpu s)) Empty (get_node s i).
      by move=> Hi; have := I4 i Hi; rewrite Epc cats0 /mode_of if_same.
    have Hasg i : nth [::] (m_asg s) i = [::].
      apply/nilP; rewrite /nilp; have [_] := I8 i; rewrite Epc /= => /perm_size; rewrite size_cat.
      case: (ltnP i (num s)) => Hi; first by rewrite (perm_size (Hq i Hi)) -{1}[size (seen _ _ _)]add0n => /eqP; rewrite eqn_add2r eq_sym.
      have -> : seen (m_handed s) i d = [::]; last by move=> /= /esym /eqP; rewrite addn_eq0 => /andP[].
      have [/allP T1 _ _ _ _] := I13; rewrite /seen /of_proc (eq_in_filter (a2 := pred0)) ?filter_pred0 // => x /T1 /andP[Hx _] /=.
      by apply/negbTE/eqP => E; move: Hx; rewrite E ltnNge Hi.
    eexists; first reflexivity.
    case: (j_link I) => [L1 L2 L3 L4 L5 L6 L7 L8 L9 L10|L1 L2].
      exists N, [::], d', c', [::], B, fut'; apply: (minv_switch (d0 := d) (c0 := c)) => //; first by rewrite L1 Ef.
      by split; rewrite ?L6 ?L7 ?L8 ?L9 // => i Hi; rewrite L10.
    exists N, (rcons past (d, c, P)), d', c', [::], B, fut'; apply: (minv_switch (d0 := d) (c0 := c)) => //.
    * by rewrite L1 Er Ef cats0 cat_rcons.
    * move=> j; rewrite mem_rcons inE => /orP[/eqP->|]; last exact: I12.
      split=> // i Hi; split; [exact: Hq| |exact: Hc].
      by have [_ _ _ _] := node_quiet (Hnodes i Hi) (Hq i Hi).
    * by rewrite map_rcons.
  + have [Er Ef Ep] := assigns_destroy I3.
    eexists; first reflexivity; apply: out.
    set s' := mgoto _ _.
    have Hsz : num s' = num s by rewrite /= size_map size_behead prednK.
    have Hget i : i < num s -> get_node s' i = if i == 0 then get_node s i else post MShutdown (get_node s i).
      case: i => [|i] Hi //; rewrite /get_node /= (nth_map node0) ?size_behead ?nth_behead //; lia.
    have Hdn i : i < num s -> p_done (n_proc (get_node s' i)) = p_done (n_proc (get_node s i)).
      by move=> Hi; rewrite Hget //; case: ifP.
    split; rewrite ?Hsz //.
    * case: (j_link I) => *; [apply: MNoJob|apply: MJob] => // i; rewrite Hsz => Hi; rewrite Hdn //; auto.
    * move=> i Hi; rewrite Hget //; have := I4 i Hi; rewrite Epc /mode_of if_same /=.
      by case: ifP => // _ /node_close[].
    * by move=> i; have := I8 i; rewrite Epc.
    * by move=> _; apply: I10; rewrite Epc.
    * by move=> i Hi _; have := I11 i Hi; rewrite Epc; apply.
    * move=> j Hj; have [K1 K2] := I12 j Hj; split=> // i; rewrite Hsz => Hi.
      by have [J1 J2 J3] := K2 i Hi; split=> //; rewrite /done_at Hdn.
    * have [K1 K2 K3 K4 K5] := I13; split; rewrite ?Hsz //.
      by move=> i Hi; rewrite Hdn //; exact: K4.
- (* QShut *)
  have Hq i : i < num s -> perm_eq (seen (m_handed s) i d) (seen (m_reported s) i d) by apply: I10; rewrite Epc.
  have Hc i : i < num s -> perm_eq (seen (m_handed s) i d) (seen (m_saved s) i d ++ [::]).
    by move=> Hi; have := I11 i Hi; rewrite Epc; apply.
  have [O1 O2 O3 O4 O5] := own_facts K0.
  case: ltnP => Ht; eexists; try reflexivity; apply: out; rewrite -mgoto_prog; last first.
    by apply: minv_goto; rewrite ?Epc // => i Hi _; exact: Hc.
  have [H1 H2] := shutdown_ok O4 Ht; have [S1 S2 S3 [S4 S5 S6 S7]] := H2.
  apply: (@minv_move s N past d c P rest fut 0 _ (m_ocl s) (m_cpu s)) => //; rewrite ?Epc //.
  * by rewrite /mode_of eqxx; have := own_same K0 H2 H1; rewrite Epc.
  * by move=> i Hi _; exact: Hc.
- (* QShutNotify *)
  have Hq i : i < num s -> perm_eq (seen (m_handed s) i d) (seen (m_reported s) i d) by apply: I10; rewrite Epc.
  have Hc i : i < num s -> perm_eq (seen (m_handed s) i d) (seen (m_saved s) i d ++ [::]).
    by move=> Hi; have := I11 i Hi; rewrite Epc; apply.
  have [O1 O2 O3 O4 O5] := own_facts K0.
  have [H1 H2] := notify_ok t O4; have [S1 S2 S3 [S4 S5 S6 S7]] := H2.
  eexists; first reflexivity; apply: out; rewrite -mgoto_prog.
  apply: (@minv_move s N past d c P rest fut 0 _ (m_ocl s) (m_cpu s)) => //; rewrite ?Epc //.
  * by rewrite /mode_of eqxx; have := own_same K0 H2 H1; rewrite Epc.
  * by move=> i Hi _; exact: Hc.
- (* QJoin *)
  have Hq i : i < num s -> perm_eq (seen (m_handed s) i d) (seen (m_reported s) i d) by apply: I10; rewrite Epc.
  have Hc i : i < num s -> perm_eq (seen (m_handed s) i d) (seen (m_saved s) i d ++ [::]).
    by move=> Hi; have := I11 i Hi; rewrite Epc; apply.
  eexists; first reflexivity; apply: out; case: (t_phase _) => *; try exact: I.
  by rewrite -mgoto_prog; apply: minv_goto; rewrite ?Epc // => i Hi _; exact: Hc.
- by exists s => //; apply: out.
Qed.

(** ** Every step *)
Lemma mstep_ok s a : mgood s -> exists2 s', mstep contrib s a = Ok s' & mgood s'.
Proof.
move=> [N [past [d [c [P [rest [fut I]]]]]]].
have out s' : minv s' N past d c P rest fut -> mgood s' by exists N, past, d, c, P, rest, fut.
have Hu i := seen_uniq i I; have Hcfg i := cfg_cases i I.
case: a => [save|i|i t|i t] /=.
- exact: (minv_main save I).
- case: andP => [[_ Hi]|_]; last by exists s => //; exact: out.
  have [w' [H1 H2 H3]] := node_main (Hu i) (Hcfg i) (j_nodes I Hi).
  by rewrite H1 /=; eexists; first reflexivity; apply: out; apply: minv_inside => //; left.
- case: ltnP => Hi; last by exists s => //; exact: out.
  have [p [H1 H2 H3]] := node_thread Hmap (Hu i) (Hcfg i) t (j_nodes I Hi).
  by rewrite H1 /=; eexists; first reflexivity; apply: out; apply: minv_inside.
- case: ltnP => Hi; last by exists s => //; exact: out.
  have H := node_wake t (j_nodes I Hi); eexists; first reflexivity; apply: out; apply: minv_inside => //.
  by left; have [_ [_ _ _ [_ H' _ _]]] := notify_ok t (k_proc (j_nodes I Hi)).
Qed.

Lemma mrun_ok acts s : mgood s -> exists2 s', mrun contrib s acts = Ok s' & mgood s'.
Proof.
elim: acts s => [|a acts IH] s Hs; first by exists s.
by have [s1 H1 H2] := mstep_ok a Hs; have [s2 H3 H4] := IH s1 H2; exists s2 => //; rewrite /mrun /= H1.
Qed.

Lemma mstart_good kinds : 0 < size kinds -> mgood (mstart kinds F0 (main_program jobs)).
Proof.
move=> Hk; exists [::], [::], 0, 0, [::], [::], jobs.
have Hget i : i < size kinds -> get_node (mstart kinds F0 (main_program jobs)) i = Node (spark (nth [::] kinds i)) [::] [::] NProbe.
  by move=> Hi; rewrite /get_node /= (nth_map [::]).
split=> //.
- by apply: MNoJob => // i; rewrite size_map => Hi; rewrite Hget.
- by rewrite /= cats0.
- move=> i; rewrite size_map => Hi; rewrite Hget //; split=> //=.
  + by rewrite /mode_of /=; case: ifP.
  + split=> //=; first by rewrite size_map cats0.
      by move=> t; rewrite size_map => Ht; rewrite (nth_map false).
    by exists [::], [::].
  + by exists [::] => //; apply: acct_nil => //; rewrite /pend /=; elim: (nth _ _ _).
- by rewrite /= size_map.
- by move=> i; rewrite /= nth_nil.
- by split=> //= i; rewrite size_map => Hi; rewrite Hget.
Qed.
End Inv.
