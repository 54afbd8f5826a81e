(** With at least one thread in some process, and every main thread run and every thread run and woken from time to
    time, the MPI program ends. *)
Set Warnings "-notation-overridden,-ambiguous-paths".
From mathcomp Require Import all_ssreflect zify.
From Verif Require Import Res ResFacts OMap OMapFacts OMapPerm Store StoreSpec StoreProofs FilesProofs
  Pool PoolProofs Standalone StandaloneSpec Account StandaloneProofs StandaloneTheorems Progress
  Mpi MpiSpec MpiNode MpiProofs.

Set Implicit Arguments.
Unset Strict Implicit.
Unset Printing Implicit Defensive.

(** ** Threads that are shut down *)
Definition shutP (closed : bool) (join : option nat) (p : proc) : Prop :=
  let thr t := nth thread0 (p_threads p) t in
  [/\ forall t, t < size (p_threads p) -> t_phase (thr t) = TExit -> t_shut (thr t),
      forall t, t < size (p_threads p) -> t_shut (thr t) -> closed &
      forall t, join = Some t -> t < size (p_threads p) /\ t_shut (thr t)].

Lemma shutP_same c j j' p p' : p_threads p' = p_threads p -> j' = j \/ j' = None -> shutP c j p -> shutP c j' p'.
Proof. by move=> E Ej [H1 H2 H3]; split; rewrite ?E //; case: Ej => ->. Qed.

Lemma shutP_up c j p : shutP c j p -> shutP true None p.
Proof. by case=> H1 H2 H3; split. Qed.

Lemma shutP_repl c j j' p p' t x : shutP c j p -> repl p p' t x ->
  t_shut x = t_shut (nth thread0 (p_threads p) t) ->
  (t_phase x = TExit -> t_phase (nth thread0 (p_threads p) t) = TExit \/ t_shut x) ->
  j' = j \/ j' = None -> shutP c j' p'.
Proof.
move=> [H1 H2 H3] R Hs Hp Ej; have Esz := repl_size R; have En u := repl_nth u R; have [Ht _] := R.
have Hsh u : t_shut (nth thread0 (p_threads p') u) = t_shut (nth thread0 (p_threads p) u).
  by rewrite En; case: eqP => [->|].
split.
- move=> u; rewrite Esz Hsh => Hu; rewrite En; case: eqP => [Eu /Hp|_]; last exact: H1.
  by rewrite Hs Eu => -[/H1|]; [apply|].
- by move=> u; rewrite Esz Hsh; exact: H2.
- by move=> u Eu; rewrite Esz Hsh; case: Ej => Ej; [apply: H3; rewrite -Ej | rewrite Ej in Eu].
Qed.

Lemma shutP_down j p t p' : shutP true j p -> t < size (p_threads p) -> p' = set_shutdown p t -> shutP true (Some t) p'.
Proof.
move=> [H1 H2 H3] Ht ->; have [x [R Hs Hp]] := shutdown_repl Ht; have Esz := repl_size R; have En u := repl_nth u R.
split=> //.
- by move=> u; rewrite Esz En => Hu; case: eqP => [//|_]; exact: H1.
- by move=> u [<-]; rewrite Esz En eqxx.
Qed.

(** ** The work left to a process *)
Definition msgw (k : nat) (m : msg) : nat :=
  match m with MConfig _ => 1 | MAssign _ _ => 9 | MShutdown => 10 * k + 2 | _ => 0 end.
Definition npcw (k : nat) (x : npc) : nat :=
  match x with
  | NProbe | NDone => 0 | NNotify _ => 1
  | NShut t => 10 * (k - t) + 1 | NShutNotify t => 10 * (k - t) - 7 | NJoin t => 10 * (k - t) - 8
  end.
Definition nsz (w : node) : nat := size (p_threads (n_proc w)).
Definition inw (w : node) : nat := sumn [seq msgw (nsz w) m | m <- n_in w].
Definition nw (w : node) : nat := tsum (p_threads (n_proc w)) + inw w + npcw (nsz w) (n_pc w).

Definition nclosing (x : npc) : bool := if x is (NShut _ | NShutNotify _ | NJoin _ | NDone) then true else false.
Definition njoin (x : npc) : option nat := if x is (NShutNotify t | NJoin t) then Some t else None.

(** Nothing that matters changed but that requests arrived. *)
Definition nkeep (w w' : node) : Prop :=
  [/\ p_threads (n_proc w') = p_threads (n_proc w), n_pc w' = n_pc w &
      exists2 l, n_in w' = n_in w ++ l & all request l].

Lemma nkeep_refl w : nkeep w w. Proof. by split=> //; exists [::]; rewrite ?cats0. Qed.

Lemma nkeep_sz w w' : nkeep w w' -> nsz w' = nsz w. Proof. by rewrite /nsz => -[->]. Qed.

Lemma nkeep_nw w w' : nkeep w w' -> nw w' = nw w.
Proof.
move=> H; rewrite /nw /inw (nkeep_sz H); case: H => -> -> [l -> Hl]; congr (_ + _ + _).
rewrite map_cat sumn_cat; suff -> : sumn [seq msgw (nsz w) m | m <- l] = 0 by rewrite addn0.
by elim: l Hl => [|[c|o b||||] l IH] //= /IH.
Qed.

(** One step of the main thread of a worker process. *)
Variant nout (w w' : node) : Prop :=
  | NLess of nw w' < nw w
  | NStay of w' = w & [\/ n_pc w = NProbe /\ n_in w = [::], n_pc w = NDone | exists t, [/\ n_pc w = NJoin t, t < nsz w,
       t_shut (nth thread0 (p_threads (n_proc w)) t) & t_phase (nth thread0 (p_threads (n_proc w)) t) <> TExit]]
  | NAnswer m of n_pc w = NProbe & n_in w = [:: m] & n_in w' = [::] & request m & n_pc w' = n_pc w &
      p_threads (n_proc w') = p_threads (n_proc w) &
      (m = MReady \/ nilp (p_ready (n_proc w)) -> nilp (p_ready (n_proc w'))) &
      (m = MFinished \/ nilp (p_finished (n_proc w)) -> nilp (p_finished (n_proc w'))).

Lemma flush_ready_nil p : p_ready (flush_ready p).1 = [::] /\ p_finished (flush_ready p).1 = p_finished p.
Proof. by rewrite /flush_ready; case: (foldl _ _ _). Qed.

Lemma nw_pop w m ms : n_in w = m :: ms -> nw w = nw (nset_in w ms) + msgw (nsz w) m.
Proof. by rewrite /nw /inw /nsz /= => -> /=; lia. Qed.

Lemma node_down q w w' g n : chan_ok q w -> proc_ok (n_proc w) g n -> shutP (nclosing (n_pc w)) (njoin (n_pc w)) (n_proc w) ->
  (nclosing (n_pc w) -> n_in w = [::]) -> node_step w = Ok w' ->
  [/\ nsz w' = nsz w, shutP (nclosing (n_pc w')) (njoin (n_pc w')) (n_proc w'), nclosing (n_pc w') -> n_in w' = [::],
      nclosing (n_pc w') <> nclosing (n_pc w) -> q = Closed & nout w w'].
Proof.
move=> Hch Hok Hsh Hcl; rewrite /node_step; case Epc: (n_pc w) => [|t|t|t|t|].
- case Ein: (n_in w) => [|m ms]; first by case=> <-; rewrite Epc; split=> //; rewrite -?Epc //; apply: NStay => //; constructor 1.
  have [Hout Hpop] := chan_pop Hch Ein; rewrite Epc /= in Hsh.
  have Hnw := nw_pop Ein.
  case: m Ein Hpop Hnw => [c|o b||||] Ein Hpop Hnw.
  + case=> <-; split=> //=; rewrite ?Epc //; apply: NLess; rewrite Hnw /nw /inw /nsz /= Epc /=; lia.
  + case E: (pool_assign _ _ _) => [[p t]| | |] //= -[<-]; have [x [R Hs Hp]] := assign_repl E; split=> //=; rewrite ?Epc //.
    * exact: repl_size R.
    * by apply: (shutP_repl Hsh R Hs) => //; [rewrite Hp; left | left].
    apply: NLess; rewrite Hnw /nw /inw /nsz /= Epc /= (repl_size R).
    have /= := repl_sum R; have := tmeas_le x; lia.
  + case: Hpop => // _ _ Ems.
    have [E1 E2] := flush_ready_nil (n_proc w); have E3 := flush_ready_threads (n_proc w).
    case: (flush_ready _) E1 E2 E3 => [p [nc no]] /= E1 E2 E3 [<-] /=; rewrite Epc; split=> //=.
    * by rewrite /nsz /= E3.
    * by apply: shutP_same Hsh => //; left.
    apply: (NAnswer (m := MReady)) => //=; rewrite ?Ein ?Ems ?E1 ?E2 ?Epc // => -[] //.
  + case: Hpop => // _ _ Ems.
    have E3 := flush_global_threads (n_proc w).
    have [E1 E2] : p_ready (flush_global (n_proc w)).1 = p_ready (n_proc w) /\ p_finished (flush_global (n_proc w)).1 = p_finished (n_proc w).
      by rewrite /flush_global; case: (flush_static _).
    case: (flush_global _) E1 E2 E3 => [p [r st]] /= E1 E2 E3 [<-] /=; rewrite Epc; split=> //=.
    * by rewrite /nsz /= E3.
    * by apply: shutP_same Hsh => //; left.
    apply: (NAnswer (m := MSave)) => //=; rewrite ?Ein ?Ems ?E1 ?E2 ?Epc // => -[] //.
  + case: Hpop => // _ _ Ems; rewrite /flush_finished; case=> <-; split=> //=; rewrite ?Epc //.
    apply: (NAnswer (m := MFinished)) => //=; rewrite ?Ein ?Ems ?Epc // => -[] //.
  + case: Hpop => // Eq _ Ems; case=> <-; split=> //=; first exact: shutP_up Hsh.
    by apply: NLess; rewrite Hnw /nw /inw /nsz /= Epc /= subn0; lia.
- case=> <-; rewrite Epc /= in Hsh; split=> //=; rewrite ?Epc //.
  + by rewrite /nsz /=; case: (ltnP t (nsz w)) => Ht; [have [x [/repl_size->]] := notify_repl Ht | rewrite notify_out // -leqNgt].
  + case: (ltnP t (nsz w)) => Ht; last by rewrite notify_out // -leqNgt.
    have [x [R Hs Hp _ _]] := notify_repl Ht; apply: (shutP_repl Hsh R Hs) => //; last by left.
    by move=> /Hp; left.
  + apply: NLess; rewrite /nw /inw /nsz /= Epc /=.
    case: (ltnP t (nsz w)) => Ht; last by rewrite notify_out -?leqNgt //; lia.
    by have [x [R Hs _ Hm _]] := notify_repl Ht; have := repl_sum R; rewrite (repl_size R); lia.
- rewrite Epc /= in Hsh Hcl; case: ltnP => Ht [<-]; split=> //=; rewrite ?Epc //; try exact: Hcl.
  + by have [x [/repl_size]] := shutdown_repl Ht.
  + exact: shutP_down Hsh Ht _.
  + apply: NLess; have [x [R _ _]] := shutdown_repl Ht.
    rewrite /nw /inw /nsz /= Epc /= (repl_size R); have := repl_sum R; have := tmeas_le x.
    rewrite Hcl //=; lia.
  + by apply: NLess; rewrite /nw /inw /nsz /= Epc /=; lia.
- rewrite Epc /= in Hsh Hcl; have [_ _ /(_ t erefl)[Ht Hs']] := Hsh.
  have [x [R Hs Hp Hm _]] := notify_repl Ht.
  case=> <-; split=> //=; rewrite ?Epc //; try exact: Hcl.
  + exact: repl_size R.
  + by apply: (shutP_repl Hsh R Hs) => //; [move=> /Hp; left | left].
  + apply: NLess; rewrite /nw /inw /nsz /= Epc /= (repl_size R); have /= := repl_sum R; rewrite Hcl //=; lia.
- rewrite Epc /= in Hsh Hcl; have [_ _ /(_ t erefl)[Ht Hs']] := Hsh.
  case Eph: (t_phase _) => [||||b m|b|] [<-]; rewrite ?Epc; split=> //=;
    try by (apply: NStay => //; constructor 3; exists t; split=> //; rewrite Eph).
  + by apply: shutP_same Hsh => //; right.
  + by apply: NLess; rewrite /nw /inw /nsz /= Epc /=; lia.
- by case=> <-; rewrite Epc; split=> //; rewrite -?Epc //; apply: NStay => //; constructor 2.
Qed.

(** ** The whole program *)
Section Progress.
Variable contrib : nat -> block -> store.
Hypothesis Hmap : forall c b, is_map (contrib c b).
Variables (jobs : seq job) (F0 : seq file).
Hypothesis Hjobs : jobs_wf jobs.
(** The numbers of threads of the processes. *)
Variable K : seq nat.
Hypothesis HK : 0 < sumn K.
Local Notation n := (size K).
Local Notation num s := (size (m_nodes s)).
Local Notation k0 := (nth 0 K 0).

Definition mjoin (x : mpc) : option nat := if x is (QShutNotify t | QJoin t) then Some t else None.
Definition closed_at (s : mstate) (i : nat) : bool := if i == 0 then mclosing (m_pc s) else nclosing (n_pc (get_node s i)).
Definition join_at (s : mstate) (i : nat) : option nat := if i == 0 then mjoin (m_pc s) else njoin (n_pc (get_node s i)).
Definition ix_ok (x : mpc) : bool :=
  match x with
  | QFin ix _ | QReady ix _ | QSave ix _ => ix <= n
  | QFinRecv ix _ | QReadyRecv ix _ | QSaveRecv ix _ => 0 < ix < n
  | QWriteStore ix _ _ _ | QWriteRecord ix _ _ => ix < n
  | _ => true
  end.

Record mlive (s : mstate) : Prop := MkMlive
  { l_good : mgood contrib jobs F0 s;
    l_size : [seq nsz w | w <- m_nodes s] = K;
    l_ix : ix_ok (m_pc s);
    l_zero : n_pc (get_node s 0) = NProbe;
    l_shut : forall i, i < n -> shutP (closed_at s i) (join_at s i) (n_proc (get_node s i));
    l_cl : forall i, 0 < i < n -> let w := get_node s i in
             (nclosing (n_pc w) -> mclosing (m_pc s) /\ n_in w = [::]) /\
             (mclosing (m_pc s) -> ~~ nclosing (n_pc w) -> n_in w = [:: MShutdown]) }.

Definition work (s : mstate) : nat := sumn [seq nw w | w <- m_nodes s].
Definition unit_w : nat := sumn [seq 10 * k + 12 | k <- K].
Definition wpc (x : mpc) : nat :=
  match x with
  | QNext | QDone => 0 | QNotify _ _ => 1 | QHand _ => 2
  | QFin _ (FromFill _) | QFinRecv _ (FromFill _) | QReady _ _ | QReadyRecv _ _ | QIdle _ => 3
  | QContains _ => 4
  | QSave _ _ | QSaveRecv _ _ | QWriteStore _ _ _ _ | QWriteRecord _ _ _ | QAfter _ => 3 * k0 + 5
  | QFin _ (FromWait _) | QFinRecv _ (FromWait _) | QCheck _ | QDelay _ => 3 * k0 + 6
  | QShut t => 3 * (k0 - t) + 3 | QShutNotify t => 3 * (k0 - t) + 2 | QJoin t => 3 * (k0 - t) + 1
  end.
Definition wmain (s : mstate) : nat := size (m_prog s) * (3 * k0 + 7) + wpc (m_pc s).
Definition mmu (s : mstate) : nat := unit_w * wmain s + work s.

(** The position within a loop over the processes. *)
Definition pending (s : mstate) (i : nat) : bool := ~~ nilp (n_in (get_node s i)).
Definition rk (k : caller) : nat := if k is FromFill _ then 3 * n + 4 else 1.
Definition lam (s : mstate) : nat :=
  match m_pc s with
  | QFin ix k => rk k + 3 * (n.+1 - ix)
  | QFinRecv ix k => rk k + 3 * (n - ix) + 1 + pending s ix
  | QReady ix _ => 3 * (n.+1 - ix) + 1
  | QReadyRecv ix _ => 3 * (n - ix) + 2 + pending s ix
  | QIdle _ | QCheck _ | QAfter _ => 1
  | QSave ix _ => 5 * (n.+1 - ix) + 1
  | QSaveRecv ix _ => 5 * (n - ix) + 4 + pending s ix
  | QWriteStore ix _ _ _ => 5 * (n - ix) + 3
  | QWriteRecord ix _ _ => 5 * (n - ix) + 2
  | _ => 0
  end.
Definition lmax : nat := 6 * n + 7.

(** The processes asked so far in this turn of the loop have nothing more to tell. *)
Definition no_ready (s : mstate) (i : nat) : bool := nilp (p_ready (n_proc (get_node s i))).
Definition no_finished (s : mstate) (i : nat) : bool := nilp (p_finished (n_proc (get_node s i))).
Definition settled (s : mstate) : bool :=
  match m_pc s with
  | QReady ix _ => all (no_ready s) (iota 0 ix)
  | QReadyRecv ix _ => all (no_ready s) (iota 0 ix) && (pending s ix || no_ready s ix)
  | QIdle _ => all (no_ready s) (iota 0 n)
  | QFin ix (FromWait _) => all (no_finished s) (iota 0 ix)
  | QFinRecv ix (FromWait _) => all (no_finished s) (iota 0 ix) && (pending s ix || no_finished s ix)
  | QCheck _ => all (no_finished s) (iota 0 n)
  | _ => true
  end.

Definition recv (x : mpc) : option nat :=
  match x with QFinRecv ix _ | QReadyRecv ix _ | QSaveRecv ix _ => Some ix | _ => None end.

Lemma lam_max s : ix_ok (m_pc s) -> lam s <= lmax.
Proof.
rewrite /ix_ok /lam /lmax /rk; case: (m_pc s) => [|b|b|ix [b|k]|ix [b|k]|ix b|ix b|b|b|t b|k|ix k|ix k|ix k r st|ix k r|k|t|t|t|] Hix;
  try case: (pending s ix) => /=; lia.
Qed.

Lemma live_num s : mlive s -> num s = n.
Proof. by move=> /l_size <-; rewrite size_map. Qed.

Lemma live_nsz s i : mlive s -> nsz (get_node s i) = nth 0 K i.
Proof.
move=> Hl; have Hs := l_size Hl; case: (ltnP i (num s)) => Hi; first by rewrite -Hs (nth_map node0).
by rewrite /get_node !nth_default // -?Hs ?size_map.
Qed.

Lemma n_gt0 : 0 < n. Proof. by case: (K) HK. Qed.

Lemma unit_ge : 12 * n + 10 * sumn K <= unit_w.
Proof. by rewrite /unit_w; elim: (K) => [|k l IH] //=; lia. Qed.

(** ** Replacing one process *)
Lemma work_set s i w : i < num s -> work (set_node s i w) + nw (get_node s i) = work s + nw w.
Proof. by rewrite /work /get_node /=; elim: (m_nodes s) i => [|y l IH] [|i] //= Hi; [lia | have := IH i Hi; lia]. Qed.

Lemma work_gt0 s : 0 < work s -> exists2 i, i < num s & 0 < nw (get_node s i).
Proof.
rewrite /work /get_node; elim: (m_nodes s) => [|y l IH] //= H; case: (posnP (nw y)) => E; last by exists 0.
by have [|i Hi Hm] := IH; [lia | exists i.+1].
Qed.

Lemma work0 s i : work s = 0 -> i < num s -> nw (get_node s i) = 0.
Proof.
by rewrite /work /get_node; elim: (m_nodes s) i => [|y l IH] [|i] //= H; [lia | move=> Hi; apply: IH => //; lia].
Qed.

Lemma work_keep s s' : num s' = num s -> (forall i, nkeep (get_node s i) (get_node s' i)) -> work s' = work s.
Proof.
move=> Hn H; rewrite /work; congr sumn; apply: (@eq_from_nth _ 0); rewrite !size_map // => i Hi.
by rewrite !(nth_map node0) -?Hn //; have := nkeep_nw (H i); rewrite /get_node.
Qed.

Lemma size_keep s s' : num s' = num s -> (forall i, nkeep (get_node s i) (get_node s' i)) ->
  [seq nsz w | w <- m_nodes s'] = [seq nsz w | w <- m_nodes s].
Proof.
move=> Hn H; apply: (@eq_from_nth _ 0); rewrite !size_map // => i Hi.
by rewrite !(nth_map node0) -?Hn //; have := nkeep_sz (H i); rewrite /get_node.
Qed.

Lemma set_keep s i w : i < num s -> nkeep (get_node s i) w ->
  num (set_node s i w) = num s /\ forall j, nkeep (get_node s j) (get_node (set_node s i w) j).
Proof.
move=> Hi H; split; first exact: size_set.
by move=> j; rewrite get_set; case: eqP => [->|_] //; exact: nkeep_refl.
Qed.

(** Steps of the master that leave the threads and the messages to be worked off alone. *)
Lemma keep_live s s' : mlive s -> mgood contrib jobs F0 s' -> ~~ mclosing (m_pc s) -> ~~ mclosing (m_pc s') ->
  num s' = num s -> (forall i, nkeep (get_node s i) (get_node s' i)) -> ix_ok (m_pc s') -> mlive s'.
Proof.
move=> Hl G Hc Hc' Hn H Hix; split=> //.
- by rewrite (size_keep Hn H) (l_size Hl).
- by have [_ -> _] := H 0; exact: l_zero Hl.
- move=> i Hi; have [E1 E2 _] := H i; apply: (shutP_same E1 _ _); last first.
    have := l_shut Hl Hi; rewrite /closed_at; case: ifP => _; last by rewrite -E2; apply.
    by rewrite (negbTE Hc) (negbTE Hc'); apply.
  rewrite /join_at; case: ifP => _; last by rewrite E2; left.
  by right; case: (m_pc s') Hc'.
- move=> i Hi; have [E1 E2 _] := H i; have [H1 H2] := l_cl Hl Hi; split; last by rewrite (negbTE Hc').
  by rewrite E2 => /H1[]; rewrite (negbTE Hc).
Qed.

(** What one step of the master does. *)
Variant mout (s s' : mstate) : Prop :=
  | OLess of mmu s' < mmu s
  | OMove of num s' = num s & (forall i, nkeep (get_node s i) (get_node s' i)) & wmain s' = wmain s &
      lam s' < lam s & (settled s -> settled s')
  | OBack of num s' = num s & (forall i, nkeep (get_node s i) (get_node s' i)) & wmain s' = wmain s &
      lam s' < lam s + lmax & settled s' & (0 < work s \/ ~~ settled s)
  | OStay of s' = s & [\/ 0 < work s, (exists2 ix, recv (m_pc s) = Some ix & pending s ix) | m_pc s = QDone].

Lemma fold_fields i bs s s' : foldM (mfinished i) s bs = Ok s' ->
  [/\ m_nodes s' = m_nodes s, m_prog s' = m_prog s & m_store s' = m_store s].
Proof.
elim: bs s => [|b bs IH] s /=; first by case=> <-.
by rewrite /mfinished; case: (os_mem _ _ _) => //= /IH[-> -> ->].
Qed.

(** ** Without work left *)
Lemma closed_no s i : mlive s -> ~~ mclosing (m_pc s) -> i < n -> closed_at s i = false.
Proof.
move=> Hl Hc Hi; rewrite /closed_at; case: eqP => [_|Hz]; first exact: negbTE.
have Hi' : 0 < i < n by rewrite Hi andbT lt0n; apply/eqP.
by apply/negP => Hcl; have [/(_ Hcl)[Hm _] _] := l_cl Hl Hi'; rewrite Hm in Hc.
Qed.

Lemma inw_asg w : inw w = 0 -> asgs (n_in w) = [::] /\ forall o, nasg o (n_in w) = 0.
Proof. by rewrite /inw; elim: (n_in w) => [|[c|o b||||] l IH] //=; try lia; exact: IH. Qed.

Lemma calm_busy s N past d c P rest fut i : minv contrib jobs F0 s N past d c P rest fut -> mlive s -> work s = 0 ->
  ~~ mclosing (m_pc s) -> i < n -> p_busy (n_proc (get_node s i)) = [::].
Proof.
move=> I Hl Hw Hc Hi; have Hi' : i < num s by rewrite live_num.
have H0 := work0 Hw Hi'; have K0 := j_nodes I Hi'; have [S1 S2 _] := l_shut Hl Hi.
case E: (p_busy _) => [|x l] //; have : 0 < tsum (p_threads (n_proc (get_node s i))).
  apply: (busy_meas (k_proc K0)); last by rewrite E.
  by move=> t Ht /(S1 t Ht)/(S2 t Ht); rewrite closed_no.
by move: H0; rewrite /nw; lia.
Qed.

Lemma calm_idle s b : mlive s -> m_pc s = QIdle b -> m_cpu s = [::] -> m_ocl s = [::] -> work s = 0 -> ~~ settled s.
Proof.
move=> Hl Epc Ec Eo Hw; have [N [past [d [c [P [rest [fut I]]]]]]] := l_good Hl.
rewrite /settled Epc; apply/negP => /allP Hr.
suff : sumn K = 0 by lia.
have zero (l : seq nat) : (forall i, i < size l -> nth 0 l i = 0) -> sumn l = 0.
  by elim: l => [|k l IH] //= H; have /= -> := H 0 isT; apply: IH => i Hi; exact: (H i.+1).
rewrite -(l_size Hl); apply: zero => i; rewrite size_map => Hi; rewrite (nth_map node0) //.
rewrite -/(get_node s i) /nsz; have Hn : i < n by rewrite -(live_num Hl).
have K0 := j_nodes I Hi; rewrite Ec Eo /= in K0; have H0 := work0 Hw Hi.
have [A1 A2] : asgs (n_in (get_node s i)) = [::] /\ forall o, nasg o (n_in (get_node s i)) = 0.
  by apply: inw_asg; move: H0; rewrite /nw; lia.
have Ho : n_out (get_node s i) = [::].
  by have := k_chan K0; rewrite /mode_of Epc; case: eqP => _ [].
have Hp := k_proc K0; rewrite !A2 Ho /= in Hp.
have [G [C [E1 E2 E3 _ _]]] := ok_idle Hp; have := perm_size (ok_perm Hp).
have /nilP -> : no_ready s i by apply: Hr; rewrite mem_iota.
rewrite E1; rewrite /owners; have -> : p_busy (n_proc (get_node s i)) = [::].
  by apply: (calm_busy I) => //; rewrite Epc.
by rewrite size_iota !size_cat /=; move: E2 E3; rewrite /rocl /rcpu /=; lia.
Qed.

Lemma calm_check s k : mlive s -> m_pc s = QCheck k -> work s = 0 -> settled s -> all (fun bs => nilp bs) (m_asg s).
Proof.
move=> Hl Epc Hw; have [N [past [d [c [P [rest [fut I]]]]]]] := l_good Hl.
rewrite /settled Epc => /allP Hr; apply/(all_nthP [::]) => i _.
have [_ H2] := j_asg I i; rewrite Epc /= in H2.
case: (ltnP i n) => Hi; last first.
  have E : seen (m_handed s) i d = [::].
    have [T1 _ _ _ _] := j_track I; rewrite /seen /of_proc /at_dir.
    suff -> : [seq x <- m_handed s | x.1 == i] = [::] by [].
    apply/eqP; rewrite -(negbK (_ == _)) -has_filter -all_predC; apply: sub_all T1 => x /andP[H _] /=.
    by rewrite (live_num Hl) in H; apply/eqP => E; rewrite E in H; lia.
  by move: H2; rewrite E perm_sym => /perm_nilP; case: (nth _ _ _).
have Hi' : i < num s by rewrite live_num.
have K0 := j_nodes I Hi'; have H0 := work0 Hw Hi'.
have [A1 A2] : asgs (n_in (get_node s i)) = [::] /\ forall o, nasg o (n_in (get_node s i)) = 0.
  by apply: inw_asg; move: H0; rewrite /nw; lia.
have Ho : n_out (get_node s i) = [::].
  by have := k_chan K0; rewrite /mode_of Epc; case: eqP => _ [].
have [hp E A] := k_acct K0; rewrite A1 cats0 in E; have := a_keys A; rewrite -E Ho {1}/rfin /= cats0 /keys.
have -> : p_busy (n_proc (get_node s i)) = [::] by apply: (calm_busy I) => //; rewrite Epc.
have /nilP -> : no_finished s i by apply: Hr; rewrite mem_iota.
by move=> /= H3; have := perm_size H2; rewrite (perm_size H3) !size_cat => /eqP; rewrite -{1}[size (seen _ _ _)]add0n eqn_add2r eq_sym.
Qed.

(** ** One step of the master *)
Lemma mu_less s s' : wmain s' < wmain s -> work s' < work s + unit_w -> mmu s' < mmu s.
Proof.
move=> H1 H2; rewrite /mmu; have : unit_w * (wmain s').+1 <= unit_w * wmain s by rewrite leq_mul2l H1 orbT.
rewrite mulnS; lia.
Qed.

Lemma unit12 : 12 <= unit_w.
Proof. by have := unit_ge; have := n_gt0; lia. Qed.

Lemma allI (p : nat -> bool) m : reflect (forall j, j < m -> p j) (all p (iota 0 m)).
Proof.
apply: (iffP allP) => H j; first by move=> Hj; apply: H; rewrite mem_iota.
by rewrite mem_iota /= add0n; exact: H.
Qed.

(** One process is replaced. *)
Lemma set_live s s' i w : mlive s -> mgood contrib jobs F0 s' -> i < n -> m_nodes s' = set_nth node0 (m_nodes s) i w ->
  n_pc w = n_pc (get_node s i) -> nsz w = nsz (get_node s i) -> mclosing (m_pc s') = mclosing (m_pc s) ->
  i = 0 \/ ~~ mclosing (m_pc s) -> (i != 0 -> mjoin (m_pc s') = mjoin (m_pc s) \/ mjoin (m_pc s') = None) -> ix_ok (m_pc s') ->
  shutP (closed_at s i) (if i == 0 then mjoin (m_pc s') else njoin (n_pc w)) (n_proc w) ->
  mlive s' /\ work s' + nw (get_node s i) = work s + nw w.
Proof.
move=> Hl G Hi En Epc Esz Hc Hz Hj Hix Hsh; have Hn := live_num Hl; have Hi' : i < num s by rewrite Hn.
have Hget j : get_node s' j = if j == i then w else get_node s j by rewrite /get_node En nth_set_nth.
have Hnum : num s' = num s by rewrite En; exact: (@size_set s i w).
split; last by have := work_set w Hi'; rewrite /work /set_node /= -En.
split=> //.
- rewrite -(l_size Hl); apply: (@eq_from_nth _ 0); rewrite !size_map // => j; rewrite Hnum => Hj'.
  rewrite !(nth_map node0) ?Hnum // -/(get_node s' j) Hget; case: eqP => [->|_] //; exact: Esz.
- by rewrite Hget; case: eqP => [E|_]; [rewrite Epc -E|]; exact: l_zero Hl.
- move=> j Hj'; have := l_shut Hl Hj'; rewrite /closed_at /join_at Hget; case: (j =P i) => [->|Hne].
    by move: Hsh; rewrite /closed_at Epc Hc; case: ifP.
  rewrite Hc; case: (j =P 0) => [E|_] //; have Hi0 : i != 0 by apply/eqP => E'; case: Hne; rewrite E E'.
  by apply: shutP_same => //; have [->|->] := Hj Hi0; [left | right].
- move=> j Hj'; have := l_cl Hl Hj'; rewrite Hc Hget; case: (j =P i) => [E|_] //=.
  rewrite Epc -E => -[K1 K2]; case: Hz => [Hz|Hz]; first by rewrite E Hz in Hj'.
  by split; [move=> /K1[] H | move=> H]; rewrite H in Hz.
Qed.

Lemma keep_out s s' : mlive s -> mgood contrib jobs F0 s' -> ~~ mclosing (m_pc s) -> ~~ mclosing (m_pc s') ->
  num s' = num s -> (forall i, nkeep (get_node s i) (get_node s' i)) -> ix_ok (m_pc s') ->
  wmain s' < wmain s -> mlive s' /\ mout s s'.
Proof.
move=> Hl G Hc Hc' Hn Hk Hix Hw; split; first exact: (keep_live Hl).
by apply: OLess; apply: mu_less => //; rewrite (work_keep Hn Hk); have := unit12; lia.
Qed.

(** A message to all other processes. *)
Lemma post_all s s' w m : 0 < num s -> m_nodes s' = w :: [seq post m x | x <- behead (m_nodes s)] ->
  [/\ num s' = num s, forall i, i < num s -> get_node s' i = if i == 0 then w else post m (get_node s i) &
      work s' + nw (get_node s 0) = work s + nw w + sumn [seq msgw (nsz x) m | x <- behead (m_nodes s)]].
Proof.
rewrite /work /get_node; case: (m_nodes s) => [|w0 l] //= _ -> /=; rewrite size_map; split=> //.
  by case=> [|i] //= Hi; rewrite (nth_map node0).
suff -> : sumn [seq nw x | x <- [seq post m x | x <- l]] = sumn [seq nw x | x <- l] + sumn [seq msgw (nsz x) m | x <- l] by lia.
elim: l => [|x l IH] //=; rewrite IH.
suff -> : nw (post m x) = nw x + msgw (nsz x) m by lia.
by rewrite /nw /inw /nsz /= map_rcons sumn_rcons; lia.
Qed.

Lemma post_bound s m : mlive s -> (forall k, msgw k m <= 10 * k + 2) ->
  sumn [seq msgw (nsz x) m | x <- behead (m_nodes s)] < unit_w.
Proof.
move=> Hl Hm; have := n_gt0; rewrite /unit_w -(l_size Hl) size_map; case: (m_nodes s) => [|w0 l] //= _.
suff : sumn [seq msgw (nsz x) m | x <- l] <= sumn [seq 10 * k + 12 | k <- [seq nsz w | w <- l]] by lia.
by elim: l => [|x l IH] //=; have := Hm (nsz x); lia.
Qed.

Lemma get_gset s i w x j : get_node (mgoto (set_node s i w) x) j = if j == i then w else get_node s j.
Proof. exact: get_set. Qed.

Lemma main_out s save s' : mlive s -> master_step s save = Ok s' -> mlive s' /\ mout s s'.
Proof.
move=> Hl Hst; have G' : mgood contrib jobs F0 s'.
  by have [s2] := mstep_ok Hmap Hjobs (AMaster save) (l_good Hl); rewrite /= Hst => -[->].
have Hn := live_num Hl; have [N [past [d [c [P [rest [fut I]]]]]]] := l_good Hl.
have [H0 Ho Hc] := j_queues I; have Hix := l_ix Hl; have Hn0 := n_gt0; have Hk0 := live_nsz 0 Hl.
have quick (_ : unit) : m_nodes s' = m_nodes s -> ~~ mclosing (m_pc s) -> ~~ mclosing (m_pc s') ->
    ix_ok (m_pc s') -> wmain s' < wmain s -> mlive s' /\ mout s s'.
  move=> E ? ? ? ?; apply: keep_out; rewrite ?E // => i; rewrite /get_node E; exact: nkeep_refl.
have same (_ : unit) : m_nodes s' = m_nodes s -> ~~ mclosing (m_pc s) -> ~~ mclosing (m_pc s') ->
    ix_ok (m_pc s') -> wmain s' = wmain s -> lam s' < lam s -> (settled s -> settled s') -> mlive s' /\ mout s s'.
  move=> E ? ? ? ? ? ?; have Hk i : nkeep (get_node s i) (get_node s' i) by rewrite /get_node E; exact: nkeep_refl.
  by split; [apply: (keep_live Hl); rewrite ?E | apply: OMove; rewrite ?E].
have one i w : m_nodes s' = set_nth node0 (m_nodes s) i w -> i < num s -> nkeep (get_node s i) w ->
    ~~ mclosing (m_pc s) -> ~~ mclosing (m_pc s') ->
    ix_ok (m_pc s') -> wmain s' = wmain s -> lam s' < lam s -> (settled s -> settled s') -> mlive s' /\ mout s s'.
  move=> E Hi Hk ? ? ? ? ? ?; have [E1 E2] := set_keep Hi Hk.
  have E3 : num s' = num s by rewrite E.
  have E4 j : nkeep (get_node s j) (get_node s' j) by have := E2 j; rewrite /get_node E.
  by split; [apply: (keep_live Hl) | apply: OMove].
have chan i : i < num s -> chan_ok (mode_of (m_pc s) i) (get_node s i) by move=> Hi; exact: (k_chan (j_nodes I Hi)).
have kproc w p : p_threads p = p_threads (n_proc w) -> nkeep w (nset_proc w p).
  by move=> E; split=> //; exists [::]; rewrite ?cats0.
have kout w o : nkeep w (nset_out w o) by split=> //; exists [::]; rewrite ?cats0.
have kpost w m : request m -> nkeep w (post m w).
  by move=> Hm; split=> //; exists [:: m]; rewrite ?cats1 //= Hm.
move: Hst; rewrite /master_step.
case Epc: (m_pc s) Hix chan => [|b|b|ix k|ix k|ix b|ix b|b|b|t b|k|ix k|ix k|ix k r st|ix k r|k|t|t|t|] Hix chan.
- (* QNext *)
  have := j_prog I; rewrite Epc /=.
  case Ep: (m_prog s) => [|[d' c'|b|] cs] Ht; first by case: rest fut Ht I => [|? ?] [|[[? ?] ?] ?].
  1,2,3: by case=> E; apply: (quick tt); rewrite -?E ?Epc // /wmain /= Epc Ep /=; lia.
- (* QDelay *)
  by case: save => -[E]; apply: (quick tt); rewrite -?E ?Epc // /wmain /= Epc /=; lia.
- (* QContains *)
  case: (m_store s) => [[d' r]|] // -[E]; apply: (quick tt); rewrite -?E ?Epc //=;
    case: ifP => //= _; rewrite ?/wmain /= ?Epc /=; try lia; by case: (m_ocl s) => /= *; lia.
- (* QFin *)
  case: ifP => [/eqP Ez|Hz].
    rewrite /flush_finished; case E: (foldM _ _ _) => [s1| | |] //= -[E'].
    have [F1 F2 F3] := fold_fields E.
    apply: (@one 0 (nset_proc (get_node s 0) (set_finished (n_proc (get_node s 0)) [::]))); rewrite -?E' ?Epc //.
    + exact: kproc.
    + by rewrite /wmain /= F2 Epc; case: (k).
    + by rewrite /lam /= Epc Ez; lia.
    + rewrite /settled /=; case: (k) => // a _; rewrite andbT /no_finished /get_node /= F1 nth_set_nth /=.
      by [].
  case: ltnP => Hlt [E].
    apply: (@one ix (post MFinished (get_node s ix))); rewrite -?E ?Epc //.
    + exact: kpost.
    + by rewrite /= lt0n Hz /= -Hn.
    + by rewrite /wmain /= Epc; case: (k).
    + rewrite /lam /= Epc /pending get_gset eqxx /=; case: (n_in _) => [|? ?] /=; lia.
    + rewrite /settled /= Epc; case: (k) => // a /allI H; apply/andP; split; last first.
        by rewrite /pending get_gset eqxx /=; case: (n_in _).
      apply/allI => j Hj; rewrite /no_finished get_gset; case: eqP => [Ej|_]; [lia | exact: H].
  have Ei : ix = n by move: Hix => /=; lia.
  apply: (same tt); rewrite -?E ?Epc //.
  + by case: (k).
  + by case: (k).
  + by rewrite /wmain /= Epc; case: (k).
  + by rewrite /lam /= Epc Ei /=; case: (k) => *; rewrite /rk; lia.
  + by rewrite /settled /= Epc Ei; case: (k).
- (* QFinRecv *)
  have /andP[Hp Hlt] := Hix; have Hlt' : ix < num s by rewrite Hn.
  have Ech := chan ix Hlt'; rewrite /mode_of eqn0Ngt Hp /= eqxx in Ech.
  have stay (_ : unit) : n_in (get_node s ix) <> [::] -> s = s' -> mlive s' /\ mout s s'.
    move=> Hin <-; split=> //; apply: OStay => //; constructor 2; exists ix; rewrite ?Epc //.
    by rewrite /pending; case: (n_in _) Hin.
  case Eo: (n_out _) => [|rp out].
    case=> E; apply: (stay tt) => //; case: Ech => [[[l -> _] _ _]|[_ [r']]]; last by rewrite Eo.
    by case: (l).
  have [F1 F2 F3 F4] := chan_answer Ech Eo; case: rp Eo F2 F4 => // bs Eo F2 _.
  case E: (foldM _ _ _) => [s1| | |] //= -[E']; have [L1 L2 L3] := fold_fields E.
  apply: (@one ix (nset_out (get_node s ix) out)); rewrite -?E' ?Epc //.
  + by rewrite /wmain /= L2 Epc; case: (k).
  + by rewrite /lam /= Epc /rk; case: (k) => *; lia.
  + rewrite /settled /= Epc; case: (k) => // a /andP[/allI K1 K2]; apply/(allI (no_finished _) ix.+1) => j Hj.
    rewrite /no_finished /get_node /= L1 nth_set_nth /=; case: eqP => [Ej|Ej] /=.
      by move: K2; rewrite /pending F1.
    by apply: K1; lia.
- (* QReady *)
  case: ifP => [/eqP Ez|Hz].
    have [E1 E2] := flush_ready_nil (n_proc (get_node s 0)); have E3 := flush_ready_threads (n_proc (get_node s 0)).
    case: (flush_ready _) E1 E2 E3 => [p [nc no]] /= E1 E2 E3 [E].
    apply: (@one 0 (nset_proc (get_node s 0) p)); rewrite -?E ?Epc //.
    + exact: kproc.
    + by rewrite /wmain /= Epc.
    + by rewrite /lam /= Epc Ez; lia.
    + by rewrite /settled /= andbT /no_ready /get_node /= nth_set_nth /= E1.
  case: ltnP => Hlt [E].
    apply: (@one ix (post MReady (get_node s ix))); rewrite -?E ?Epc //.
    + exact: kpost.
    + by rewrite /= lt0n Hz /= -Hn.
    + by rewrite /wmain /= Epc.
    + rewrite /lam /= Epc /pending get_gset eqxx /=; case: (n_in _) => [|? ?] /=; lia.
    + rewrite /settled /= Epc => /allI H; apply/andP; split; last first.
        by rewrite /pending get_gset eqxx /=; case: (n_in _).
      apply/allI => j Hj; rewrite /no_ready get_gset; case: eqP => [Ej|_]; [lia | exact: H].
  have Ei : ix = n by move: Hix => /=; lia.
  apply: (same tt); rewrite -?E ?Epc //.
  + by rewrite /wmain /= Epc.
  + by rewrite /lam /= Epc Ei /=; lia.
  + by rewrite /settled /= Epc Ei.
- (* QReadyRecv *)
  have /andP[Hp Hlt] := Hix; have Hlt' : ix < num s by rewrite Hn.
  have Ech := chan ix Hlt'; rewrite /mode_of eqn0Ngt Hp /= eqxx in Ech.
  have stay (_ : unit) : n_in (get_node s ix) <> [::] -> s = s' -> mlive s' /\ mout s s'.
    move=> Hin <-; split=> //; apply: OStay => //; constructor 2; exists ix; rewrite ?Epc //.
    by rewrite /pending; case: (n_in _) Hin.
  case Eo: (n_out _) => [|rp out].
    case=> E; apply: (stay tt) => //; case: Ech => [[[l -> _] _ _]|[_ [r']]]; last by rewrite Eo.
    by case: (l).
  have [F1 F2 F3 F4] := chan_answer Ech Eo; case: rp Eo F2 F4 => // nc no Eo F2 _.
  case=> E'; apply: (@one ix (nset_out (get_node s ix) out)); rewrite -?E' ?Epc //.
  + by rewrite /wmain /= Epc.
  + by rewrite /lam /= Epc; lia.
  + rewrite /settled /= Epc => /andP[/allI K1 K2]; apply/(allI (no_ready _) ix.+1) => j Hj.
    rewrite /no_ready /get_node /= nth_set_nth /=; case: eqP => [Ej|Ej] /=.
      by move: K2; rewrite /pending F1.
    by apply: K1; lia.
- (* QIdle *)
  case: ifP => Hq [E]; last by apply: (quick tt); rewrite -?E ?Epc // /wmain /= Epc /=; lia.
  have Hk i : nkeep (get_node s i) (get_node s' i) by rewrite -E; exact: nkeep_refl.
  split; first by apply: (keep_live Hl) => //; rewrite -?E ?Epc.
  apply: OBack => //; rewrite -?E // ?/wmain /= ?Epc //; first by rewrite /lam /lmax /= Epc; lia.
  case: (posnP (work s)) => Hw; [right | by left].
  by have /andP[/nilP Q1 /nilP Q2] := Hq; exact: (calm_idle Hl Epc).
- (* QHand *)
  have give (o : bool) i s1 : (i < num s) -> m_nodes s1 = m_nodes s -> m_prog s1 = m_prog s ->
      (let s := mset_handed s1 (rcons (m_handed s1) (i, (m_dir s1, b))) in
       let w := get_node s i in
       if i == 0 then
         pt <- pool_assign (n_proc w) b o ;; Ok (mgoto (set_node s 0 (nset_proc w pt.1)) (QNotify pt.2 b))
       else Ok (mgoto (minsert i b (set_node s i (post (MAssign o b) w))) QNext)) = Ok s' -> mlive s' /\ mout s s'.
    move=> Hi En Ep; cbv zeta; have Eg j : get_node (mset_handed s1 (rcons (m_handed s1) (i, (m_dir s1, b)))) j = get_node s j.
      by rewrite /get_node /= En.
    rewrite Eg; case: eqP => [Ei|Ei].
      case E: (pool_assign _ _ _) => [[p t]| | |] //= -[E']; have [x [R Hs Hp]] := assign_repl E.
      rewrite Ei in R Hs Hp E'.
      have [||||||||//|Hl' Hw] := @set_live s s' 0 (nset_proc (get_node s 0) p) Hl G'; rewrite -?E' ?Epc //=; try by right.
      + by rewrite En.
      + exact: repl_size R.
      + have := l_shut Hl Hn0; rewrite /join_at /closed_at Epc /= => Hsh.
        by apply: (shutP_repl Hsh R Hs); [rewrite Hp; left | left].
      split; first by rewrite E'.
      apply: OLess; rewrite E'; apply: mu_less; first by rewrite -E' /wmain /= Epc Ep /=; lia.
      have := repl_sum R; have := tmeas_le x; have := unit12; move: Hw.
      by rewrite /nw /inw /nsz /= (repl_size R); lia.
    move=> [E']; have [||||||||//|Hl' Hw] := @set_live s s' i (post (MAssign o b) (get_node s i)) Hl G'; rewrite -?E' ?Epc //=; try by [left | right].
    + by rewrite -Hn.
    + by rewrite En.
    + have := l_shut Hl (i := i); rewrite -Hn /join_at /closed_at; case: eqP => // _; exact.
    split; first by rewrite E'.
    apply: OLess; rewrite E'; apply: mu_less; first by rewrite -E' /wmain /= Epc Ep /=; lia.
    have := unit12; move: Hw; rewrite /nw /inw /nsz /= map_rcons sumn_rcons /=; lia.
  case Eo: (m_ocl s) => [|i ocl] /=; last by apply: give => //; have := Ho; rewrite Eo /= => /andP[].
  by case Ec: (m_cpu s) => [|i cpu] //=; apply: give => //; have := Hc; rewrite Ec /= => /andP[].
- (* QNotify *)
  case=> E'; set w := get_node s 0 in E'.
  have [||||||||//|Hl' Hw] := @set_live s s' 0 (nset_proc w (notify (n_proc w) t)) Hl G'; rewrite -?E' ?Epc //=; try by right.
  + by rewrite /nsz /=; case: (ltnP t (nsz w)) => Ht; [have [x [/repl_size->]] := notify_repl Ht | rewrite notify_out // -leqNgt].
  + have := l_shut Hl Hn0; rewrite /join_at /closed_at Epc /= -/w => Hsh.
    case: (ltnP t (nsz w)) => Ht; last by rewrite notify_out // -leqNgt.
    have [x [R Hs Hp _ _]] := notify_repl Ht; apply: (shutP_repl Hsh R Hs) => //; last by left.
    by move=> /Hp; left.
  split; first by rewrite E'.
  apply: OLess; rewrite E'; apply: mu_less; first by rewrite -E' /wmain /= Epc /=; lia.
  have := unit12; move: Hw; rewrite /nw /inw /nsz /= -/w.
  case: (ltnP t (nsz w)) => Ht; last by rewrite notify_out -?leqNgt //; lia.
  by have [x [R Hs _ Hm _]] := notify_repl Ht; have := repl_sum R; rewrite (repl_size R); lia.
- (* QCheck *)
  case: ifP => Hq [E]; first by apply: (quick tt); rewrite -?E ?Epc // /wmain /= Epc /=; lia.
  have Hk i : nkeep (get_node s i) (get_node s' i) by rewrite -E; exact: nkeep_refl.
  split; first by apply: (keep_live Hl) => //; rewrite -?E ?Epc.
  apply: OBack => //; rewrite -?E // ?/wmain /= ?Epc //; first by rewrite /lam /lmax /= Epc; lia.
  case: (posnP (work s)) => Hw; [right | by left].
  by apply/negP => Hs; have := calm_check Hl Epc Hw Hs; rewrite Hq.
- (* QSave *)
  case: ifP => [/eqP Ez|Hz].
    case: (m_store s) => [ds|].
      have E3 := flush_global_threads (n_proc (get_node s 0)).
      case: (flush_global _) E3 => [p [r st]] /= E3 [E].
      apply: (@one 0 (nset_proc (get_node s 0) p)); rewrite -?E ?Epc //.
      + exact: kproc.
      + by rewrite /wmain /= Epc.
      + by rewrite /lam /= Epc Ez; lia.
    case=> E; apply: (same tt); rewrite -?E ?Epc //.
    + by rewrite /wmain /= Epc.
    + by rewrite /lam /= Epc Ez /=; lia.
  case: ltnP => Hlt [E].
    apply: (@one ix (post MSave (get_node s ix))); rewrite -?E ?Epc //.
    + exact: kpost.
    + by rewrite /= lt0n Hz /= -Hn.
    + by rewrite /wmain /= Epc.
    + rewrite /lam /= Epc /pending get_gset eqxx /=; case: (n_in _) => [|? ?] /=; lia.
  apply: (same tt); rewrite -?E ?Epc //.
  + by rewrite /wmain /= Epc.
  + by move: Hix; rewrite /lam /= Epc /=; lia.
- (* QSaveRecv *)
  have /andP[Hp Hlt] := Hix; have Hlt' : ix < num s by rewrite Hn.
  have Ech := chan ix Hlt'; rewrite /mode_of eqn0Ngt Hp /= eqxx in Ech.
  have stay (_ : unit) : n_in (get_node s ix) <> [::] -> s = s' -> mlive s' /\ mout s s'.
    move=> Hin <-; split=> //; apply: OStay => //; constructor 2; exists ix; rewrite ?Epc //.
    by rewrite /pending; case: (n_in _) Hin.
  case Eo: (n_out _) => [|rp out].
    case=> E; apply: (stay tt) => //; case: Ech => [[[l -> _] _ _]|[_ [r']]]; last by rewrite Eo.
    by case: (l).
  have [F1 F2 F3 F4] := chan_answer Ech Eo; case: rp Eo F2 F4 => // r st Eo F2 _.
  case=> E'; apply: (@one ix (nset_out (get_node s ix) out)); rewrite -?E' ?Epc //.
  + by rewrite /wmain /= Epc.
  + by rewrite /lam /= Epc; lia.
- (* QWriteStore *)
  case=> E; apply: (same tt); rewrite -?E ?Epc //.
  + by rewrite /wmain /= Epc.
  + by rewrite /lam /= Epc; lia.
- (* QWriteRecord *)
  case=> E; apply: (same tt); rewrite -?E ?Epc //.
  + by rewrite /wmain /= Epc.
  + by move: Hix; rewrite /lam /= Epc /=; lia.
- (* QAfter *)
  case: k Epc Hix chan => [b|d' c'|] Epc Hix chan [E].
  + by apply: (quick tt); rewrite -?E ?Epc // /wmain /= Epc /=; lia.
  + set w := nset_proc _ _ in E.
    have [P1 P2 P3] := @post_all s s' w (MConfig c') H0 (esym (congr1 m_nodes E)).
    have Hb := post_bound Hl (m := MConfig c') (fun k => leq_trans (isT : 1 <= 2) (leq_addl _ _)).
    split; last first.
      apply: OLess; apply: mu_less; first by rewrite -E /wmain /= Epc /=; lia.
      by have Ew : nw w = nw (get_node s 0) by []; move: P3; rewrite Ew; lia.
    split=> //.
    * rewrite -(l_size Hl); apply: (@eq_from_nth _ 0); rewrite !size_map // => j; rewrite P1 => Hj'.
      by rewrite !(nth_map node0) ?P1 // -/(get_node s' j) P2 //; case: eqP => [->|].
    * by rewrite -E.
    * by rewrite P2 //=; exact: l_zero Hl.
    * move=> j Hj; have Hj' : j < num s by rewrite Hn.
      have := l_shut Hl Hj; rewrite /closed_at /join_at P2 // -E Epc /=; case: eqP => [->|_] //.
    * move=> j /andP[Hj1 Hj2]; have Hj' : j < num s by rewrite Hn.
      rewrite P2 // eqn0Ngt Hj1 -E /=; split=> //.
      have [|K1 K2] := l_cl Hl (i := j); first by rewrite Hj1.
      by move=> /K1[]; rewrite Epc.
  + have [P1 P2 P3] := @post_all s s' (get_node s 0) MShutdown H0 (esym (congr1 m_nodes E)).
    have Hb := post_bound Hl (m := MShutdown) (fun k => leqnn _).
    split; last first.
      apply: OLess; apply: mu_less; first by rewrite -E /wmain /= Epc /=; lia.
      by move: P3; lia.
    split=> //.
    * rewrite -(l_size Hl); apply: (@eq_from_nth _ 0); rewrite !size_map // => j; rewrite P1 => Hj'.
      by rewrite !(nth_map node0) ?P1 // -/(get_node s' j) P2 //; case: eqP => [->|].
    * by rewrite -E.
    * by rewrite P2 //=; exact: l_zero Hl.
    * move=> j Hj; have Hj' : j < num s by rewrite Hn.
      have := l_shut Hl Hj; rewrite /closed_at /join_at P2 // -E Epc /=; case: eqP => [->|_] //.
      exact: shutP_up.
    * move=> j /andP[Hj1 Hj2]; have Hj' : j < num s by rewrite Hn.
      rewrite P2 // eqn0Ngt Hj1 -E /=; have := chan j Hj'; rewrite /mode_of eqn0Ngt Hj1 /= => -[-> _].
      split=> //; have [|K1 K2] := l_cl Hl (i := j); first by rewrite Hj1.
      by move=> /K1[]; rewrite Epc.
- (* QShut *)
  set w := get_node s 0; have Esz : size (p_threads (n_proc w)) = k0 by exact: Hk0.
  have Hsh := l_shut Hl Hn0; rewrite /join_at /closed_at Epc /= -/w in Hsh.
  case: ltnP => Ht [E'].
    have [x [R Hs Hp]] := shutdown_repl Ht.
    have [||||||||//|Hl' Hw] := @set_live s s' 0 (nset_proc w (set_shutdown (n_proc w) t)) Hl G'; rewrite -?E' ?Epc //=; try by left.
    + exact: repl_size R.
    + by rewrite /closed_at Epc /=; exact: shutP_down Hsh Ht _.
    split; first by rewrite E'.
    apply: OLess; rewrite E'; apply: mu_less; first by rewrite -E' /wmain /= Epc /=; lia.
    have := repl_sum R; have := tmeas_le x; have := unit12; move: Hw.
    by rewrite /nw /inw /nsz /= -/w (repl_size R); lia.
  have Eg : m_nodes s' = m_nodes s by rewrite -E'.
  have Eg' j : get_node s' j = get_node s j by rewrite /get_node Eg.
  split; last first.
    apply: OLess; apply: mu_less; first by rewrite -E' /wmain /= Epc /=; lia.
    by rewrite /work Eg; have := unit12; lia.
  split=> //; rewrite ?Eg ?Eg' -?E' //=; try by case: Hl.
  + by move=> j Hj; have := l_shut Hl Hj; rewrite /closed_at /join_at Epc.
  + by move=> j Hj; have := l_cl Hl Hj; rewrite Epc.
- (* QShutNotify *)
  set w := get_node s 0; have Esz : size (p_threads (n_proc w)) = k0 by exact: Hk0.
  have Hsh := l_shut Hl Hn0; rewrite /join_at /closed_at Epc /= -/w in Hsh.
  have [_ _ /(_ t erefl)[Ht Hs']] := Hsh; have [x [R Hs Hp Hm _]] := notify_repl Ht.
  case=> E'; have [||||||||//|Hl' Hw] := @set_live s s' 0 (nset_proc w (notify (n_proc w) t)) Hl G'; rewrite -?E' ?Epc //=; try by left.
  + exact: repl_size R.
  + rewrite /closed_at Epc /=; apply: (shutP_repl Hsh R Hs) => //; last by left.
    by move=> /Hp; left.
  split; first by rewrite E'.
  apply: OLess; rewrite E'; apply: mu_less; first by rewrite -E' /wmain /= Epc /=; lia.
  by have := repl_sum R; have := unit12; move: Hw; rewrite /nw /inw /nsz /= -/w (repl_size R); lia.
- (* QJoin *)
  have Hsh := l_shut Hl Hn0; rewrite /join_at /closed_at Epc /= in Hsh.
  have [_ _ /(_ t erefl)[Ht Hs']] := Hsh; have K0 := j_nodes I H0.
  have spin (_ : unit) : t_phase (nth thread0 (p_threads (n_proc (get_node s 0))) t) <> TExit -> s = s' -> mlive s' /\ mout s s'.
    move=> He <-; split=> //; apply: OStay => //; constructor 1.
    have := shut_meas (k_proc K0) Ht Hs' He; have := @work_set s 0 (get_node s 0) H0; rewrite (MpiProofs.set_same H0).
    have : nw (get_node s 0) <= work s by rewrite /work /get_node; case: (m_nodes s) H0 => //= *; lia.
    by rewrite /nw; lia.
  case Eph: (t_phase _) => [||||b m|b|] [E]; try by (apply: (spin tt) => //; rewrite Eph).
  have Eg : m_nodes s' = m_nodes s by rewrite -E.
  have Eg' j : get_node s' j = get_node s j by rewrite /get_node Eg.
  split; last first.
    apply: OLess; apply: mu_less; first by move: Ht; rewrite -E /wmain /= Epc /= -/(nsz _) Hk0; lia.
    by rewrite /work Eg; have := unit12; lia.
  split=> //; rewrite ?Eg ?Eg' -?E //=; try by case: Hl.
  + move=> j Hj; have := l_shut Hl Hj; rewrite /closed_at /join_at Epc /=; case: ifP => // _.
    by apply: shutP_same => //; right.
  + by move=> j Hj; have := l_cl Hl Hj; rewrite Epc.
- by case=> <-; split=> //; apply: OStay => //; constructor 3.
Qed.

(** ** One step of a worker process or of a thread *)
Definition thr_at (s : mstate) (i t : nat) : thread := nth thread0 (p_threads (n_proc (get_node s i))) t.

Lemma inside_live s i w : mlive s -> mgood contrib jobs F0 (set_node s i w) -> i < n -> (i = 0 -> n_pc w = NProbe) ->
  nsz w = nsz (get_node s i) ->
  shutP (if i == 0 then mclosing (m_pc s) else nclosing (n_pc w)) (if i == 0 then mjoin (m_pc s) else njoin (n_pc w)) (n_proc w) ->
  (0 < i -> (nclosing (n_pc w) -> mclosing (m_pc s) /\ n_in w = [::]) /\
            (mclosing (m_pc s) -> ~~ nclosing (n_pc w) -> n_in w = [:: MShutdown])) ->
  mlive (set_node s i w).
Proof.
move=> Hl G Hi Hz Esz Hsh Hcl; have Hn := live_num Hl; have Hi' : i < num s by rewrite Hn.
split=> //.
- rewrite -(l_size Hl); apply: (@eq_from_nth _ 0); rewrite !size_map size_set // => j Hj.
  rewrite !(nth_map node0) ?size_set // -/(get_node _ j) get_set; case: eqP => [->|_] //; exact: Esz.
- exact: l_ix Hl.
- by rewrite get_set; case: eqP => [/esym E|_]; [exact: Hz | exact: l_zero Hl].
- move=> j Hj; have := l_shut Hl Hj; rewrite /closed_at /join_at get_set /=; case: (j =P i) => [->|] //.
- by move=> j /andP[Hj1 Hj2]; rewrite get_set; case: (j =P i) => [E|_]; [apply: Hcl; rewrite -E | apply: (l_cl Hl); rewrite Hj1].
Qed.

(** Nothing that matters changed. *)
Definition nsame (w w' : node) : Prop :=
  [/\ n_pc w' = n_pc w, n_in w' = n_in w, nsz w' = nsz w,
      p_ready (n_proc w') = p_ready (n_proc w) /\ p_finished (n_proc w') = p_finished (n_proc w) &
      forall t, let x := nth thread0 (p_threads (n_proc w)) t in let x' := nth thread0 (p_threads (n_proc w')) t in
        tmeas x' = tmeas x /\ (0 < tmeas x -> x' = x)].

Lemma nsame_refl w : nsame w w. Proof. by split. Qed.

(** The action was not one that helps. *)
Definition idle_act (s : mstate) (b : maction) : Prop :=
  match b with
  | AMaster _ => True
  | ANode i => 0 < i < n -> let w := get_node s i in
      [\/ n_pc w = NProbe /\ n_in w = [::], n_pc w = NDone | exists2 t, n_pc w = NJoin t & 0 < tmeas (thr_at s i t)]
  | AStep i t => 0 < tmeas (thr_at s i t) -> t_phase (thr_at s i t) = TWait
  | AWake i t => 0 < tmeas (thr_at s i t) -> t_phase (thr_at s i t) <> TWait
  end.

Variant iout (s s' : mstate) (b : maction) : Prop :=
  | ILess of mmu s' < mmu s
  | ISame of m_pc s' = m_pc s & m_prog s' = m_prog s & num s' = num s & work s' = work s &
      (forall i, nsame (get_node s i) (get_node s' i)) & idle_act s b
  | IAnswer i m of b = ANode i & m_pc s' = m_pc s & m_prog s' = m_prog s & num s' = num s & work s' = work s &
      (forall j t, thr_at s' j t = thr_at s j t) & (forall j, n_pc (get_node s' j) = n_pc (get_node s j)) &
      (forall j, j <> i -> get_node s' j = get_node s j) & n_pc (get_node s i) = NProbe & n_in (get_node s i) = [:: m] &
      request m & lam s' < lam s & (settled s -> settled s').

Lemma thread_quiet p g c t p' : proc_ok p g c -> t < size (p_threads p) -> thread_step contrib p t = Ok p' ->
  tmeas (nth thread0 (p_threads p) t) = 0 \/ t_phase (nth thread0 (p_threads p) t) = TWait ->
  p_ready p' = p_ready p /\ p_finished p' = p_finished p.
Proof.
move=> Hok Ht; rewrite /thread_step Ht; have [H1 H2 _] := ok_thr Hok Ht.
set thr := nth thread0 (p_threads p) t in H1 H2 *.
case E: (t_phase thr) => [||||b m|b|].
- by case: (t_shut thr) => [[<-]|] //; case: (t_queue thr) => [|bc q] [<-].
- by case=> <-.
- by case=> <-.
- by case: (t_queue thr) => [|[b m] q] // [<-].
- by case: m E => [m|] E // [<-].
- move: H1; rewrite /hold_ok /tmeas /holding /todo_of /waiting E /=.
  by case: (t_queue thr) => [|bc q] /= _ _ [].
- by case=> <-.
Qed.

Lemma repl_out s i t p x b : mlive s -> i < n -> t < nsz (get_node s i) ->
  mgood contrib jobs F0 (set_node s i (nset_proc (get_node s i) p)) ->
  repl (n_proc (get_node s i)) p t x -> t_shut x = t_shut (thr_at s i t) ->
  (t_phase x = TExit -> t_phase (thr_at s i t) = TExit \/ t_shut x) -> tmeas x <= tmeas (thr_at s i t) ->
  (tmeas x = tmeas (thr_at s i t) ->
     [/\ p_ready p = p_ready (n_proc (get_node s i)) /\ p_finished p = p_finished (n_proc (get_node s i)),
         0 < tmeas (thr_at s i t) -> x = thr_at s i t & idle_act s b]) ->
  let s' := set_node s i (nset_proc (get_node s i) p) in mlive s' /\ iout s s' b.
Proof.
move=> Hl Hi Ht G R Hs Hp Hm Hq; set w := get_node s i in Hi Ht G R Hs Hp Hm Hq *; set s' := set_node _ _ _ => /=.
have Hn := live_num Hl; have Hi' : i < num s by rewrite Hn.
have Hw := work_set (nset_proc w p) Hi'; rewrite -/s' -/w in Hw.
have Esum := repl_sum R; have Esz := repl_size R; have En u := repl_nth u R.
have Hnw : nw (nset_proc w p) + tmeas (thr_at s i t) = nw w + tmeas x.
  by rewrite /nw /inw /nsz /= Esz; move: Esum; rewrite /thr_at -/w; lia.
split.
- apply: inside_live => //=.
  + by move=> E; rewrite /w E; exact: l_zero Hl.
  + have := l_shut Hl Hi; rewrite /closed_at /join_at -/w => Hsh.
    by apply: (shutP_repl Hsh R Hs Hp); left.
  + by move=> Hi0; apply: (l_cl Hl); rewrite Hi0.
case: (ltngtP (tmeas x) (tmeas (thr_at s i t))) => Hlt.
- by apply: ILess; rewrite /mmu /wmain /=; lia.
- by lia.
have [E1 E2 E3] := Hq Hlt; apply: ISame => //; [exact: size_set | by lia |].
move=> j; rewrite get_set; case: eqP => [->|_]; last exact: nsame_refl.
split=> //= u; rewrite En; case: eqP => [->|_] //; split=> //.
Qed.

Lemma thread_out s i t s' b : mlive s -> b = AStep i t \/ b = AWake i t -> mstep contrib s b = Ok s' ->
  mlive s' /\ iout s s' b.
Proof.
move=> Hl Hb Hst; have G' : mgood contrib jobs F0 s'.
  by have [s2] := mstep_ok Hmap Hjobs b (l_good Hl); rewrite Hst => -[->].
have Hn := live_num Hl; have [N [past [d [c [P [rest [fut I]]]]]]] := l_good Hl.
have none (_ : unit) : s = s' -> tmeas (thr_at s i t) = 0 -> mlive s' /\ iout s s' b.
  move=> <- E0; split=> //; apply: ISame => //.
  by case: Hb => ->; rewrite /= E0.
have out : ~~ (i < num s) -> tmeas (thr_at s i t) = 0.
  by rewrite -leqNgt => Hi; rewrite /thr_at /get_node (nth_default node0 Hi) nth_nil.
have outt : ~~ (t < nsz (get_node s i)) -> tmeas (thr_at s i t) = 0.
  by rewrite -leqNgt => Ht; rewrite /thr_at nth_default.
move: none Hst; case: Hb => -> none /=; (case: ifP => Hi; last by case=> E; apply: (none tt) => //; apply: out; rewrite Hi).
- have Hi' : i < n by rewrite -Hn.
  have Hok := k_proc (j_nodes I Hi); case E: (thread_step _ _ _) => [p| | |] //= -[E'].
  case Ht: (t < nsz (get_node s i)); last first.
    apply: (none tt); last by apply: outt; rewrite Ht.
    move: E; rewrite /thread_step -/(nsz (get_node s i)) Ht => -[E]; rewrite -E' -E -[LHS](MpiProofs.set_same Hi).
    by congr set_node; case: (get_node s i).
  have [x [R H1 H2 H3 H4]] := thread_repl Hok Ht E.
  rewrite -{}E' in G' *; apply: (repl_out Hl Hi' Ht G' R H1 H2 H3) => Ex.
  case: H4 => [[E1 E2]|H4].
    by split=> //; apply: (thread_quiet Hok Ht E); right.
  case: (posnP (tmeas (thr_at s i t))) => [E0|Hm]; last by have := H4 Hm; rewrite Ex ltnn.
  by split; [apply: (thread_quiet Hok Ht E); left | | rewrite /= E0].
- have Hi' : i < n by rewrite -Hn.
  case=> E'; case Ht: (t < nsz (get_node s i)); last first.
    apply: (none tt); last by apply: outt; rewrite Ht.
    rewrite -E' /wake notify_out ?Ht // -[LHS](MpiProofs.set_same Hi); by congr set_node; case: (get_node s i).
  have [x [R H1 H2 H3 H4]] := notify_repl Ht.
  rewrite -{}E' in G' *; apply: (repl_out Hl Hi' Ht G' R H1 _ H3) => [/H2|Ex]; first by left.
  have Hq : p_ready (wake (n_proc (get_node s i)) t) = p_ready (n_proc (get_node s i)) /\
            p_finished (wake (n_proc (get_node s i)) t) = p_finished (n_proc (get_node s i)).
    by rewrite /wake /notify; case: (t_phase _).
  case: H4 => [[E1 E2]|H4]; first by split=> // _; exact: E1.
  case: (posnP (tmeas (thr_at s i t))) => [E0|Hm]; last by have := H4 Hm; rewrite Ex ltnn.
  by split=> //; rewrite /= E0.
Qed.

Lemma node_closes w w' : node_step w = Ok w' -> (nclosing (n_pc w) -> nclosing (n_pc w')) /\
  (n_in w = [:: MShutdown] -> nclosing (n_pc w') \/ n_in w' = [:: MShutdown]).
Proof.
rewrite /node_step; case Epc: (n_pc w) => [|t|t|t|t|].
- case: (n_in w) => [|m ms]; first by case=> <-.
  move=> Hst; split=> // -[Em Ems]; move: Hst; rewrite Em => -[<-]; by left.
- by case=> <-; split=> //= ->; right.
- by case: ifP => _ [<-]; split=> //= *; left.
- by case=> <-; split=> //= *; left.
- by case: (t_phase _) => [||||b m|b|] [<-]; rewrite ?Epc; split=> //= *; left.
- by case=> <-; rewrite Epc; split=> //= *; left.
Qed.

Lemma ask_mode q w m : chan_ok q w -> n_in w = [:: m] -> request m -> q = Ask m.
Proof.
rewrite /chan_ok => + Ein Hm; rewrite Ein; case: q => [[]|[]|m'|[[|[E]]]] //.
- by case: m Hm {Ein}.
- by case=> [[[[|? [|? l]] // [->]]]|[]].
- by rewrite E in Hm.
Qed.

Lemma node_out s i s' : mlive s -> mstep contrib s (ANode i) = Ok s' -> mlive s' /\ iout s s' (ANode i).
Proof.
move=> Hl Hst; have G' : mgood contrib jobs F0 s'.
  by have [s2] := mstep_ok Hmap Hjobs (ANode i) (l_good Hl); rewrite Hst => -[->].
have Hn := live_num Hl; have [N [past [d [c [P [rest [fut I]]]]]]] := l_good Hl.
have none (_ : unit) : s = s' -> idle_act s (ANode i) -> mlive s' /\ iout s s' (ANode i).
  by move=> <- H; split=> //; apply: ISame => // j; exact: nsame_refl.
move: Hst; rewrite /mstep Hn; case: ifP => Hi; last by case=> E; apply: (none tt) => //=; rewrite Hi.
have /andP[Hi0 Hin] := Hi; have Hi' : i < num s by rewrite Hn.
have K0 := j_nodes I Hi'; set w := get_node s i in K0 *; case E: (node_step w) => [w'| | |] //= -[E'].
have Hsh := l_shut Hl Hin; rewrite /closed_at /join_at eqn0Ngt Hi0 /= -/w in Hsh.
have [C1 C2] := l_cl Hl Hi; rewrite -/w in C1 C2.
have [Esz Hsh' Hcl Hch Ho] := node_down (k_chan K0) (k_proc K0) Hsh (fun H => (C1 H).2) E.
have [D1 D2] := node_closes E.
have Hclosed (_ : unit) : mode_of (m_pc s) i = Closed -> mclosing (m_pc s).
  rewrite /mode_of eqn0Ngt Hi0 /=; case: (m_pc s) => [|b|b|ix k|ix k|ix b|ix b|b|b|t b|k|ix k|ix k|ix k r st|ix k r|k|t|t|t|] //;
    by do ?case: ifP.
have Hw := work_set w' Hi'; rewrite -/w in Hw.
have Hl' : mlive s'.
  rewrite -{}E' in G' *; apply: inside_live => //; try by rewrite eqn0Ngt Hi0.
    by move=> Ez; rewrite Ez in Hi0.
  move=> _; split.
    move=> Hc'; split; last exact: Hcl.
    by case Hc: (nclosing (n_pc w)); [have [] := C1 Hc | apply: (Hclosed tt); apply: Hch; rewrite Hc' Hc].
  move=> Hm Hc'; have Hc : ~~ nclosing (n_pc w) by apply/negP => /D1; exact/negP.
  by have [H|//] := D2 (C2 Hm Hc); rewrite H in Hc'.
split=> //; case: Ho => [Hlt|Ew Hx|m Epc Ein Ein' Hm Epc' Eth Hr Hf].
- by apply: ILess; rewrite -E' /mmu /wmain /=; lia.
- have Es : s = s' by rewrite -E' Ew /w (MpiProofs.set_same Hi').
  have [] := none tt Es => //= _; case: Hx => [|H|[t [H1 H2 H3 H4]]]; [by constructor 1 | by constructor 2 | constructor 3].
  exists t => //; rewrite /thr_at -/w; have [_ Hh _] := ok_thr (k_proc K0) H2.
  move: H3 H4 Hh; rewrite /tmeas /holding /todo_of /waiting; case: (nth _ _ _) => o q ph sh /= -> H4 Hh.
  by case: q Hh => [|bc q] Hh; case: ph Hh H4 => [||||b m|b|] //= Hh; case: Hh.
have Hget j : get_node s' j = if j == i then w' else get_node s j by rewrite -E' get_set.
have Hask := ask_mode (k_chan K0) Ein Hm; rewrite /mode_of eqn0Ngt Hi0 /= in Hask.
have Hpend j : pending s' j = (j != i) && pending s j by rewrite /pending Hget; case: eqP => // _; rewrite Ein'.
have Hpi : pending s i by rewrite /pending -/w Ein.
have Emp : m_pc s' = m_pc s by rewrite -E'.
have Hnr j : j <> i -> no_ready s' j = no_ready s j by rewrite /no_ready Hget => /eqP/negbTE->.
have Hnf j : j <> i -> no_finished s' j = no_finished s j by rewrite /no_finished Hget => /eqP/negbTE->.
apply: (@IAnswer _ _ _ i m) => //.
- by rewrite -E'.
- by rewrite -E' size_set.
- suff Ew : nw w' = nw w by move: Hw; rewrite -E' Ew => /addIn.
  rewrite /nw /inw Esz Ein Ein' Epc' Eth /=; suff -> : msgw (nsz w) m = 0 by [].
  by case: (m) Hm.
- by move=> j t; rewrite /thr_at Hget; case: eqP => [->|] //; rewrite Eth.
- by move=> j; rewrite Hget; case: eqP => [->|].
- by move=> j /eqP/negbTE Hj; rewrite Hget Hj.
- rewrite /lam Emp; case: (m_pc s) Hask => [|b|b|ix k|ix k|ix b|ix b|b|b|t b|k|ix k|ix k|ix k r st|ix k r|k|t|t|t|] //=;
    do ?(case: ifP => //); move=> /eqP <- *; by rewrite Hpend eqxx Hpi /= ltn_add2l.
- rewrite /settled Emp.
  case: (m_pc s) Hask => [|b|b|ix k|ix k|ix b|ix b|b|b|t b|k|ix k|ix k|ix k r st|ix k r|k|t|t|t|] //=;
    do ?(case: ifP => //).
  + move=> /eqP <- [Em]; case: (k) => // a /andP[/allI H1 _]; apply/andP; split.
      by apply/allI => j Hj; rewrite Hnf; [exact: H1 | move=> Ej; rewrite Ej ltnn in Hj].
    by rewrite Hpend eqxx /= /no_finished Hget eqxx; apply: Hf; left.
  + move=> /eqP <- [Em] /andP[/allI H1 _]; apply/andP; split.
      by apply/allI => j Hj; rewrite Hnr; [exact: H1 | move=> Ej; rewrite Ej ltnn in Hj].
    by rewrite Hpend eqxx /= /no_ready Hget eqxx; apply: Hr; left.
Qed.
End Progress.
