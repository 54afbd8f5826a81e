(** With at least one thread and every waiting thread woken from time to time, the program ends. *)
Set Warnings "-notation-overridden,-ambiguous-paths".
From mathcomp Require Import all_ssreflect zify.
From Verif Require Import Res ResFacts OMap OMapFacts OMapPerm Store StoreSpec StoreProofs FilesProofs
  Pool PoolProofs Standalone StandaloneSpec Account StandaloneProofs StandaloneTheorems.

Set Implicit Arguments.
Unset Strict Implicit.
Unset Printing Implicit Defensive.

(** ** The work left to a thread *)
Definition tmeas (thr : thread) : nat :=
  if holding thr is [::] then
    if t_shut thr then match t_phase thr with TPreWait => 3 | TWait => 2 | TTest => 1 | _ => 0 end else 0
  else match t_phase thr with
       | TPreWait => 7 | TWait => 6 | TTest => 5 | TPop => 4 | TWork _ _ => 3 | TFlushed _ => 2 | TExit => 0 end.
Definition tsum (ts : seq thread) : nat := sumn [seq tmeas thr | thr <- ts].

Lemma tmeas_le thr : tmeas thr <= 7.
Proof. by rewrite /tmeas; case: (holding thr) => [|b l]; [case: (t_shut _)|]; case: (t_phase thr). Qed.

Lemma tsum_set ts t x : t < size ts -> tsum (set_nth thread0 ts t x) + tmeas (nth thread0 ts t) = tsum ts + tmeas x.
Proof. by rewrite /tsum; elim: ts t => [|y ts IH] [|t] //= Ht; [lia | have := IH t Ht; lia]. Qed.

Lemma tsum0 ts : tsum ts = 0 -> forall t, tmeas (nth thread0 ts t) = 0.
Proof.
by rewrite /tsum => H t; elim: ts t H => [|y ts IH] [|t] //=; [lia | move=> H; apply: IH; lia].
Qed.

Lemma tsum_gt0 ts : 0 < tsum ts -> exists2 t, t < size ts & 0 < tmeas (nth thread0 ts t).
Proof.
rewrite /tsum; elim: ts => [|y ts IH] //= H; case: (posnP (tmeas y)) => E; last by exists 0.
by have [|t Ht Hm] := IH; [lia | exists t.+1].
Qed.

Lemma set_same (ts : seq thread) t : t < size ts -> set_nth thread0 ts t (nth thread0 ts t) = ts.
Proof. by elim: ts t => [|y ts IH] [|t] //= Ht; rewrite IH. Qed.

(** The effect of an action on the list of threads: one of them is replaced. *)
Variant repl (p p' : proc) (t : nat) (x : thread) : Prop :=
  | Repl of t < size (p_threads p) & p_threads p' = set_nth thread0 (p_threads p) t x.

Lemma repl_size p p' t x : repl p p' t x -> size (p_threads p') = size (p_threads p).
Proof. by move=> [Ht ->]; rewrite size_set_nth; apply/maxn_idPr. Qed.

Lemma repl_nth p p' t x t' : repl p p' t x ->
  nth thread0 (p_threads p') t' = if t' == t then x else nth thread0 (p_threads p) t'.
Proof. by move=> [Ht ->]; rewrite nth_set_nth. Qed.

Lemma repl_sum p p' t x : repl p p' t x ->
  tsum (p_threads p') + tmeas (nth thread0 (p_threads p) t) = tsum (p_threads p) + tmeas x.
Proof. by move=> [Ht ->]; exact: tsum_set. Qed.

Lemma finished_threads p b p' : pool_finished p b = Ok p' -> p_threads p' = p_threads p.
Proof. by rewrite /pool_finished; case: (om_find _ _ _) => // t [<-]. Qed.

Lemma thread_repl contrib p g c t p' : proc_ok p g c -> t < size (p_threads p) -> thread_step contrib p t = Ok p' ->
  let thr := nth thread0 (p_threads p) t in
  exists x, [/\ repl p p' t x, t_shut x = t_shut thr, (t_phase x = TExit -> t_phase thr = TExit \/ t_shut x),
    tmeas x <= tmeas thr & (t_phase thr = TWait /\ x = thr) \/ (0 < tmeas thr -> tmeas x < tmeas thr)].
Proof.
move=> Hok Ht; rewrite /thread_step Ht; have [H1 H2 _] := ok_thr Hok Ht.
set thr := nth thread0 (p_threads p) t in H1 H2 *.
have same : repl p p t thr.
  by split=> //; rewrite /thr set_same.
case E: (t_phase thr) => [||||b n|b|].
- case Es: (t_shut thr).
    case=> <-; eexists; split; [by split | by [] | by right | | right];
      by rewrite /tmeas /holding /todo_of /waiting /= E Es /= !cats0; case: (t_queue thr).
  case Eq: (t_queue thr) => [|bc q] [<-]; eexists; split; [by split | by [] | by [] | | right | by split | by [] | by [] | | right];
    by rewrite /tmeas /holding /todo_of /waiting /= E Eq Es.
- case=> <-; eexists; split; [by split | by [] | by [] | | right].
  + by rewrite /tmeas /holding /todo_of /waiting /= E; case: (t_queue thr) => //=; case: (t_shut thr).
  + by rewrite /tmeas /holding /todo_of /waiting /= E; case: (t_queue thr) => //=; case: (t_shut thr).
- by case=> <-; exists thr; split=> //; [rewrite E | left].
- case Eq: (t_queue thr) => [|[b n] q] //; case=> <-; eexists; split; [by split | by [] | by [] | | right].
  + by rewrite /tmeas /holding /todo_of /waiting /= E Eq; case: q {Eq}.
  + by rewrite /tmeas /holding /todo_of /waiting /= E Eq; case: q {Eq}.
- case: n E => [n|] E //; case=> <-; eexists; split; [by split | by [] | by [] | | right].
  + by rewrite /tmeas /holding /todo_of /waiting /= E; case: (t_queue thr).
  + by rewrite /tmeas /holding /todo_of /waiting /= E; case: (t_queue thr).
- move=> /finished_threads Ep; eexists; split; [by split; last exact: Ep | by [] | by [] | |].
  + move: H1; rewrite /hold_ok /tmeas /holding /todo_of /waiting /= E.
    by case: (t_queue thr) => [|bc [|bc' q]] //=; case: (t_shut thr).
  + right; move: H1; rewrite /hold_ok /tmeas /holding /todo_of /waiting /= E.
    by case: (t_queue thr) => [|bc [|bc' q]] //=; case: (t_shut thr).
- case=> <-; exists thr; split=> //; first by left.
  by right; rewrite /tmeas E; case: (holding thr) => //; case: (t_shut thr).
Qed.

Lemma notify_repl p t : t < size (p_threads p) ->
  let thr := nth thread0 (p_threads p) t in
  exists x, [/\ repl p (notify p t) t x, t_shut x = t_shut thr, (t_phase x = TExit -> t_phase thr = TExit),
    tmeas x <= tmeas thr & (t_phase thr <> TWait /\ x = thr) \/ (0 < tmeas thr -> tmeas x < tmeas thr)].
Proof.
move=> Ht thr; rewrite /notify -/thr.
have same : repl p p t thr by split=> //; rewrite /thr set_same.
case E: (t_phase thr) => [||||b n|b|]; try by exists thr; split=> //; rewrite ?E //; left.
eexists; split; [by split | by [] | by [] | |].
- by rewrite /tmeas /holding /todo_of /waiting /= E; case: (t_queue thr) => //=; case: (t_shut thr).
- by right; rewrite /tmeas /holding /todo_of /waiting /= E; case: (t_queue thr) => //=; case: (t_shut thr).
Qed.

Lemma notify_out p t : ~~ (t < size (p_threads p)) -> notify p t = p.
Proof. by rewrite -leqNgt => Ht; rewrite /notify nth_default. Qed.

Lemma assign_repl p b o p' t : pool_assign p b o = Ok (p', t) ->
  exists x, [/\ repl p p' t x, t_shut x = t_shut (nth thread0 (p_threads p) t) &
                t_phase x = t_phase (nth thread0 (p_threads p) t)].
Proof.
rewrite /pool_assign; case: (p_idle p) => [|t0 idle] //; case: (if o then _ else _) => [u idle'].
case E: (vget _ _) => [thr| | |] //=; have [Hu Et] := vget_Ok thread0 E.
case: ifP => // _ [<- <-]; rewrite -Et; by eexists; split; first by split.
Qed.

Lemma shutdown_repl p t : t < size (p_threads p) ->
  exists x, [/\ repl p (set_shutdown p t) t x, t_shut x & t_phase x = t_phase (nth thread0 (p_threads p) t)].
Proof. by move=> Ht; eexists; split; first by split. Qed.

Lemma flush_ready_threads p : p_threads (flush_ready p).1 = p_threads p.
Proof. by rewrite /flush_ready; case: (foldl _ _ _). Qed.

Lemma flush_global_threads p : p_threads (flush_global p).1 = p_threads p.
Proof. by rewrite /flush_global; case: (flush_static _). Qed.

(** ** The calls and steps left to the main thread *)
Section Progress.
Variable contrib : nat -> block -> store.
Hypothesis Hmap : forall c b, is_map (contrib c b).
Variables (jobs : seq job) (F0 : seq file).
Hypothesis Hjobs : jobs_wf jobs.
Variable n : nat.
Hypothesis Hn : 0 < n.

Definition wpc (x : pc) : nat :=
  match x with
  | PNext | PDone => 0 | PNotify _ _ => 1 | PHand _ => 2 | PFillFinished _ | PFillReady _ => 3 | PContains _ => 4
  | PAfter _ => 3 * n + 10 | PWriteRecord _ _ => 3 * n + 11 | PWriteStore _ _ _ => 3 * n + 12
  | PSave _ => 3 * n + 13 | PDelay _ | PWait _ => 3 * n + 14
  | PShut t => 3 * (n - t) + 3 | PShutNotify t => 3 * (n - t) + 2 | PJoin t => 3 * (n - t) + 1
  end.
Definition wmain (s : state) : nat := size (prog s) * (3 * n + 15) + wpc (s_pc s).
Notation ts s := (p_threads (s_proc s)).
Definition mu (s : state) : nat := 8 * wmain s + tsum (ts s).

Definition shut_ok (s : state) : Prop :=
  [/\ forall t, t < size (ts s) -> t_phase (nth thread0 (ts s) t) = TExit -> t_shut (nth thread0 (ts s) t),
      forall t, t < size (ts s) -> t_shut (nth thread0 (ts s) t) -> closing (s_pc s) &
      match s_pc s with PShutNotify t | PJoin t => t < size (ts s) /\ t_shut (nth thread0 (ts s) t) | _ => True end].
Definition live (s : state) : Prop := [/\ good contrib jobs F0 s, size (ts s) = n & shut_ok s].
Definition calm (s : state) : Prop := tsum (ts s) = 0.

Lemma busy_meas p g c : proc_ok p g c -> (forall t, t < size (p_threads p) -> t_phase (nth thread0 (p_threads p) t) <> TExit) ->
  p_busy p <> [::] -> 0 < tsum (p_threads p).
Proof.
move=> Hok HE Hb; case: (posnP (tsum (p_threads p))) => // /tsum0 H0; case: Hb.
case Eb: (p_busy p) => [|[b t] l] //.
have Ho : t \in owners p by rewrite /owners Eb inE eqxx.
have Ht : t < size (p_threads p).
  by have := perm_mem (ok_perm Hok) t; rewrite !mem_cat Ho !orbT mem_iota.
have [H1 _ _] := ok_thr Hok Ht; have := H0 t; rewrite /tmeas.
case: (holding _) H1 => [|b' l'] /=; first by rewrite -/(owners p) Ho.
by case: (t_phase _) (HE t Ht).
Qed.

Lemma shut_meas p g c t : proc_ok p g c -> t < size (p_threads p) -> t_shut (nth thread0 (p_threads p) t) ->
  t_phase (nth thread0 (p_threads p) t) <> TExit -> 0 < tsum (p_threads p).
Proof.
move=> Hok Ht Hs He; case: (posnP (tsum (p_threads p))) => // /tsum0/(_ t).
have [_ H2 _] := ok_thr Hok Ht; rewrite /tmeas /holding /todo_of /waiting; move: H2 He Hs.
case: (nth _ _ _) => o q ph sh /= H2 He ->.
by case: q H2 => [|bc q] H2; case: ph H2 He => [||||b m|b|] //= H2 He; case: H2.
Qed.

(** The threads did not change and shutting down did not begin or end. *)
Lemma shut_same s s' : shut_ok s -> ts s' = ts s -> closing (s_pc s') = closing (s_pc s) ->
  (if s_pc s' is (PShutNotify _ | PJoin _) then false else true) -> shut_ok s'.
Proof.
by move=> [H1 H2 H3] E Ec Hp; split; rewrite ?E ?Ec //; case: (s_pc s') Hp.
Qed.

Lemma shut_repl s s' t x : shut_ok s -> repl (s_proc s) (s_proc s') t x ->
  t_shut x = t_shut (nth thread0 (ts s) t) -> (t_phase x = TExit -> t_phase (nth thread0 (ts s) t) = TExit \/ t_shut x) ->
  closing (s_pc s') = closing (s_pc s) ->
  (forall u, s_pc s' = PShutNotify u \/ s_pc s' = PJoin u -> s_pc s = PShutNotify u \/ s_pc s = PJoin u) -> shut_ok s'.
Proof.
move=> [H1 H2 H3] R Hs Hp Ec Hpc; have Esz := repl_size R; have En u := repl_nth u R.
have [Ht _] := R.
have Hsh u : t_shut (nth thread0 (ts s') u) = t_shut (nth thread0 (ts s) u).
  by rewrite En; case: eqP => [->|].
split.
- move=> u; rewrite Esz Hsh => Hu; rewrite En; case: eqP => [Eu /Hp|_]; last exact: H1.
  by rewrite Hs Eu => -[/H1|]; [apply|].
- by move=> u; rewrite Esz Hsh Ec; exact: H2.
case E: (s_pc s') => [|b|b|b|b|b|v b|k|k|k r st|k r|k|u|u|u|] //; rewrite Hsh Esz.
  by have [] := Hpc u (or_introl E) => E'; rewrite E' in H3.
by have [] := Hpc u (or_intror E) => E'; rewrite E' in H3.
Qed.

Lemma good_start kinds : live (start kinds F0 (main_program jobs)) \/ size kinds <> n.
Proof.
case: (size kinds =P n) => [E|]; [left|by right]; split; first exact: start_good.
  by rewrite /= size_map.
split=> //= t; rewrite size_map => Ht; rewrite (nth_map false) //.
Qed.

(** What one step of the main thread does to the measure: it decreases, or the main thread is in one of its
    loops and the threads have work left. *)
Definition spinning (x : pc) : bool := if x is (PFillReady _ | PWait _ | PJoin _) then true else false.
Variant outcome (s s' : state) : Prop :=
  | Less of mu s' < mu s
  | Spin of ts s' = ts s & mu s' = mu s & spinning (s_pc s) & 0 < tsum (ts s)
  | Fill b of ts s' = ts s & mu s' = mu s & s_pc s = PFillFinished b & s_pc s' = PFillReady b
  | Done of s' = s & s_pc s = PDone.

Lemma flush_blocks s N past d c P rest fut : inv contrib jobs F0 s N past d c P rest fut -> notif (s_pc s) = [::] ->
  exists s', [/\ flush_finished_blocks s = Ok s', ts s' = ts s, prog s' = prog s, s_pc s' = s_pc s &
    (assigned s' <> [::] -> p_busy (s_proc s) <> [::])].
Proof.
move=> I Hno; have [H1 H2] := i_asg I; rewrite Hno cats0 in H2.
rewrite /flush_finished_blocks /flush_finished.
have H3 : perm_eq (assigned (with_proc s (set_finished (s_proc s) [::]))) (p_finished (s_proc s) ++ keys (s_proc s)).
  by apply: perm_trans H2 _; rewrite perm_catC.
have [a [-> Ha Hp]] := @report_ok _ _ (with_proc s (set_finished (s_proc s) [::])) H1 H3; eexists; split; try reflexivity.
by move=> /= Ea Eb; apply: Ea; move: Hp; rewrite /keys Eb /= => /perm_nilP.
Qed.

Lemma no_exit s : shut_ok s -> ~~ closing (s_pc s) ->
  forall t, t < size (ts s) -> t_phase (nth thread0 (ts s) t) <> TExit.
Proof. by move=> [H1 H2 _] Hc t Ht He; move/negP: Hc; apply; apply: (H2 t) => //; exact: H1. Qed.

Lemma main_live s save s' : live s -> main_step s save = Ok s' -> live s' /\ outcome s s'.
Proof.
move=> [G Hsz S] Hst; have G' : good contrib jobs F0 s'.
  by have [N [past [d [c [P [rest [fut I]]]]]]] := G; have [s2 H2 G2] := inv_main Hjobs save I; move: H2; rewrite Hst => -[->].
suff [H1 H2 H3] : [/\ size (ts s') = n, shut_ok s' & outcome s s'] by [].
have [N [past [d [c [P [rest [fut I]]]]]]] := G.
(* steps that leave the threads alone *)
have quick x : ts x = ts s -> closing (s_pc x) = closing (s_pc s) ->
    (if s_pc x is (PShutNotify _ | PJoin _) then false else true) -> wmain x < wmain s ->
    [/\ size (ts x) = n, shut_ok x & outcome s x].
  move=> E1 E2 E3 E4; split; [by rewrite E1 | exact: (shut_same S) | apply: Less].
  by rewrite /mu E1; lia.
move: Hst; rewrite /main_step; case Epc: (s_pc s) => [|b|b|b|b|b|t b|k|k|k r st|k r|k|t|t|t|].
- have := i_prog I; rewrite Epc /= /todo Epc.
  case Ep: (prog s) => [|[d' c'|b|] cs] Ht.
  + by case: rest fut Ht I => [|? ?] [|[[? ?] ?] ?].
  + by case=> <-; apply: quick; rewrite ?Epc // /wmain /= Epc Ep /=; lia.
  + by case=> <-; apply: quick; rewrite ?Epc // /wmain /= Epc Ep /=; lia.
  + by case=> <-; apply: quick; rewrite ?Epc // /wmain /= Epc Ep /=; lia.
- by case: save => -[<-]; apply: quick; rewrite ?Epc // /wmain /= Epc /=; lia.
- case: (file_store s) => [[d' r]|] // -[<-]; apply: quick; rewrite ?Epc //=; first by case: ifP => //; case: ifP.
    by case: ifP => //; case: ifP.
  by rewrite /wmain /= Epc /=; case: ifP => /= _; [lia | case: ifP => /= _; lia].
- have [|s1 [-> E1 E2 E3 _]] := flush_blocks I; first by rewrite Epc.
  case=> <-; split; [by rewrite E1 | by apply: (shut_same S); rewrite ?Epc | apply: (@Fill _ _ b)] => //.
  by rewrite /mu /wmain /= E1 E2 Epc.
- have Eth := flush_ready_threads (s_proc s); have := flush_ready_ok (i_ok I); move: Eth.
  case: (flush_ready _) => [p [c1 o1]] /= Eth [K1 K2 K3 K4]; case: ifP => Ez [<-].
    split; [by rewrite Eth | by apply: (shut_same S); rewrite ?Epc | apply: Spin] => //=.
    + by rewrite /mu /wmain /= Eth Epc.
    + by rewrite Epc.
    + have /andP[/eqP Ec /eqP Eo] := Ez; rewrite Ec Eo in K1.
      rewrite -Eth; apply: (busy_meas K1); first by rewrite Eth; apply: no_exit; rewrite ?Epc.
      move=> Eb; have := perm_size (ok_perm K1); rewrite K4 /owners Eb /= cats0 size_iota Eth Hsz.
      have [G1 [C1 [-> H3 H4 _ _]]] := ok_idle K1; rewrite size_cat; lia.
  apply: quick; rewrite ?Epc //=; by rewrite /wmain /= Epc /=; lia.
- case: ifP => // _; case E: (pool_assign _ _ _) => [[p t]| | |] //= -[<-].
  have [x [R Hs Hp]] := assign_repl E; set s1 := goto _ _.
  have R' : repl (s_proc s) (s_proc s1) t x by [].
  split; first by rewrite (repl_size R').
    apply: (shut_repl S R' Hs); rewrite ?Epc //; first by rewrite Hp; left.
    by move=> u [].
  apply: Less; have := repl_sum R'; have := tmeas_le x; rewrite /mu /wmain /= Epc /=.
  have -> : prog s1 = prog s by rewrite /s1 /=; case: ifP.
  lia.
- case=> <-; set s1 := goto _ _.
  case: (ltnP t (size (ts s))) => Ht; last first.
    apply: quick; rewrite /= ?notify_out -?leqNgt ?Epc //; by rewrite /wmain /= Epc /=; lia.
  have [x [R Hs Hp Hm _]] := notify_repl Ht; have R' : repl (s_proc s) (s_proc s1) t x by [].
  split; first by rewrite (repl_size R').
    apply: (shut_repl S R' Hs); rewrite ?Epc //; [by move=> /Hp; left | by move=> u []].
  by apply: Less; have := repl_sum R'; rewrite /mu /wmain /= Epc /=; lia.
- have [|s1 [-> E1 E2 E3 E4]] := flush_blocks I; first by rewrite Epc.
  rewrite /=; case Ea: (assigned s1) => [|a l] [<-].
    by apply: quick; rewrite /= ?Epc // /wmain /= E2 Epc /=; lia.
  split; [by rewrite /= E1 | by apply: (shut_same S); rewrite ?Epc | apply: Spin] => //=.
  + by rewrite /mu /wmain /= E1 E2 Epc.
  + by rewrite Epc.
  apply: (busy_meas (i_ok I)); first by apply: no_exit; rewrite ?Epc.
  by apply: E4; rewrite Ea.
- case: (file_store s) => [fs|]; last by case=> <-; apply: quick; rewrite ?Epc // /wmain /= Epc /=; lia.
  have := flush_global_threads (s_proc s); case: (flush_global _) => [p [r st]] /= Eth [<-].
  by apply: quick; rewrite ?Epc // /wmain /= Epc /=; lia.
- by case=> <-; apply: quick; rewrite ?Epc // /wmain /= Epc /=; lia.
- by case=> <-; apply: quick; rewrite ?Epc // /wmain /= Epc /=; lia.
- case: k Epc => [b|d' c'|] Epc [<-]; try by apply: quick; rewrite ?Epc // /wmain /= Epc /=; lia.
  split=> //; last by apply: Less; rewrite /mu /wmain /= Epc /=; lia.
  by have [S1 S2 S3] := S; split.
- case: ltnP => Ht [<-]; last first.
    split=> //; last by apply: Less; rewrite /mu /wmain /= Epc /=; lia.
    by have [S1 S2 S3] := S; split.
  set s1 := goto _ _; have [x [R Hs Hp]] := shutdown_repl Ht; have R' : repl (s_proc s) (s_proc s1) t x by [].
  have [S1 S2 S3] := S; have Esz := repl_size R'.
  split; first by rewrite Esz.
    split=> //.
    * move=> u; rewrite Esz !(repl_nth u R') => Hu; case: eqP => [//|_]; exact: S1.
    * by change (t < size (ts s1) /\ t_shut (nth thread0 (ts s1) t)); rewrite Esz (repl_nth t R') eqxx.
  apply: Less; have := repl_sum R'; have := tmeas_le x; rewrite /mu /wmain /= Epc /=; lia.
- case=> <-; set s1 := goto _ _; have [S1 S2 S3] := S; rewrite Epc in S3; have [Ht Hsh] := S3.
  have [x [R Hs Hp Hm _]] := notify_repl Ht; have R' : repl (s_proc s) (s_proc s1) t x by [].
  split; first by rewrite (repl_size R').
    apply: (shut_repl S R' Hs); rewrite ?Epc //; [by move=> /Hp; left | by move=> u [//|[->]]; left].
  by apply: Less; have := repl_sum R'; rewrite /mu /wmain /= Epc /=; lia.
- have [S1 S2 S3] := S; rewrite Epc in S3; have [Ht Hsh] := S3.
  case Eph: (t_phase _) => [||||b m|b|] [<-];
    try by (split=> //; apply: Spin; rewrite ?Epc //; apply: (shut_meas (i_ok I) Ht Hsh); rewrite Eph).
  split; [by [] | by split | by apply: Less; rewrite /mu /wmain /= Epc /=; lia].
- by case=> <-; split=> //; apply: Done.
Qed.

(** An action of a thread. *)
Variant tstep (s s' : state) (a : action) : Prop :=
  | TSame of s' = s & (forall t, t < n -> ~~ is_step t a /\ ~~ is_wake t a)
  | TRepl t x of s_pc s' = s_pc s & prog s' = prog s & repl (s_proc s) (s_proc s') t x &
      (forall u, is_step u a || is_wake u a -> u = t) & tmeas x <= tmeas (nth thread0 (ts s) t) &
      (x = nth thread0 (ts s) t /\
       if a is Step _ then t_phase (nth thread0 (ts s) t) = TWait else t_phase (nth thread0 (ts s) t) <> TWait) \/
      (0 < tmeas (nth thread0 (ts s) t) -> tmeas x < tmeas (nth thread0 (ts s) t)).

Lemma thread_live s a s' : live s -> ~~ is_main a -> step contrib s a = Ok s' -> live s' /\ tstep s s' a.
Proof.
move=> [G Hsz S] Ha Hst; have G' : good contrib jobs F0 s'.
  by have [s2 H2 G2] := step_ok Hmap Hjobs a G; move: H2; rewrite Hst => -[->].
have [N [past [d [c [P [rest [fut I]]]]]]] := G.
have same x : s_pc x = s_pc s -> forall u, s_pc x = PShutNotify u \/ s_pc x = PJoin u -> s_pc s = PShutNotify u \/ s_pc s = PJoin u.
  by move=> -> u.
case: a Ha Hst => [save|t|t] //= _.
- case: (ltnP t n) => Ht; last first.
    rewrite /thread_step Hsz ltnNge Ht /= => -[E]; have <- : s = s' by rewrite -E; case: (s).
    by split=> //; apply: TSame => // u Hu; split=> //=; apply/eqP; lia.
  case E: (thread_step _ _ _) => [p'| | |] //= -[E']; rewrite -{}E' in G' *.
  have [x [R H1 H2 H3 H4]] := thread_repl (i_ok I) (etrans (congr1 (leq t.+1) Hsz) Ht) E.
  split; last by apply: (@TRepl _ _ _ t x) => //= [u|]; [rewrite orbF => /eqP | case: H4 => [[]|]; [left | right]].
  split=> //; first by rewrite (repl_size R).
  by apply: (@shut_repl _ (with_proc s p') _ _ S R).
- case: (ltnP t n) => Ht; last first.
    rewrite /wake notify_out ?Hsz -?leqNgt // => -[E]; have <- : s = s' by rewrite -E; case: (s).
    by split=> //; apply: TSame => // u Hu; split=> //=; apply/eqP; lia.
  case=> E'; rewrite -{}E' in G' *.
  have [x [R H1 H2 H3 H4]] := notify_repl (etrans (congr1 (leq t.+1) Hsz) Ht).
  split; last by apply: (@TRepl _ _ _ t x) => //= [u /eqP|]; [| case: H4 => [[]|]; [left | right]].
  split=> //; first by rewrite (repl_size R).
  by apply: (@shut_repl _ (with_proc s (notify (s_proc s) t)) _ _ S R) => // /H2; left.
Qed.

Lemma tstep_mu s a s' : tstep s s' a -> mu s' <= mu s.
Proof.
case=> [->|t x E1 E2 R _ Hm _] //; have := repl_sum R; rewrite /mu /wmain E1 E2; lia.
Qed.

Lemma step_live s a s' : live s -> step contrib s a = Ok s' -> live s' /\ mu s' <= mu s.
Proof.
move=> Hl Hst; case Ha: (is_main a).
  case: a Ha Hst => //= save _ /(main_live Hl)[Hl' H]; split=> //.
  by case: H => [|_ ->|b _ ->|->] //; exact: ltnW.
by have [|Hl' /tstep_mu] := thread_live Hl _ Hst; first by rewrite Ha.
Qed.

Lemma run_cons s a acts s' : run contrib s (a :: acts) = Ok s' ->
  exists2 s1, step contrib s a = Ok s1 & run contrib s1 acts = Ok s'.
Proof. by rewrite /run /=; case E: (step _ _ _) => [s1| | |] //=; exists s1. Qed.

Lemma run_live acts s s' : live s -> run contrib s acts = Ok s' -> live s' /\ mu s' <= mu s.
Proof.
elim: acts s => [|a acts IH] s Hl; first by case=> <-.
move=> /run_cons[s1 /(step_live Hl)[Hl1 Hm1] /(IH _ Hl1)[Hl2 Hm2]]; split=> //; exact: leq_trans Hm1.
Qed.

(** A thread with work left is not changed by an action that makes no progress, and the action is not one
    for which it was waiting. *)
Lemma eq_thread t a s s1 : t < n -> live s -> 0 < tmeas (nth thread0 (ts s) t) -> step contrib s a = Ok s1 ->
  mu s1 = mu s ->
  [/\ nth thread0 (ts s1) t = nth thread0 (ts s) t,
    (t_phase (nth thread0 (ts s) t) = TWait -> ~~ is_wake t a) &
    (t_phase (nth thread0 (ts s) t) <> TWait -> ~~ is_step t a)].
Proof.
move=> Ht Hl Hm Hst Emu.
case Ha: (is_main a).
  case: a Ha Hst => //= save _ /(main_live Hl)[_]; case=> [|-> _ _ _|b -> _ _ _|-> _] //; lia.
have [|_] := thread_live Hl _ Hst; first by rewrite Ha.
case=> [-> /(_ t Ht)[-> ->] //|u x Ep Eg R Hu Hx Hd].
have En := repl_nth t R; have Esum := repl_sum R.
have Ex : tmeas x = tmeas (nth thread0 (ts s) u) by move: Emu; rewrite /mu /wmain Ep Eg; lia.
case: (t =P u) => [Eu|Nu].
  rewrite Eu in Hm *; rewrite Eu eqxx in En; case: Hd => [[E1 E2]|/(_ Hm)]; last by lia.
  rewrite En E1; split=> //.
    by move=> H; apply/negP; case: (a) E2 => //=; rewrite H.
  by move=> H; apply/negP; case: (a) E2.
move/eqP/negbTE: (Nu) En => -> ->; split=> // _; apply/negP => H; apply: Nu; apply: Hu; by rewrite H ?orbT.
Qed.

(** A thread with work left makes progress when it is run or, if it waits, woken. *)
Lemma seg_thread t acts s s' : t < n -> live s -> 0 < tmeas (nth thread0 (ts s) t) ->
  (t_phase (nth thread0 (ts s) t) = TWait -> has (is_wake t) acts) ->
  (t_phase (nth thread0 (ts s) t) <> TWait -> has (is_step t) acts) ->
  run contrib s acts = Ok s' -> mu s' < mu s.
Proof.
move=> Ht; elim: acts s => [|a acts IH] s Hl Hm Hw Hs.
  by case E: (t_phase (nth thread0 (ts s) t)) Hw Hs => [||||b m|b|] Hw Hs;
    try (by have := Hw erefl); have : false by apply: Hs.
move=> /run_cons[s1 Hst Hrun]; have [Hl1 Hm1] := step_live Hl Hst; have [_ Hm2] := run_live Hl1 Hrun.
case: (ltnP (mu s1) (mu s)) => Hlt; first by lia.
have Emu : mu s1 = mu s by lia.
have [E1 E2 E3] := eq_thread Ht Hl Hm Hst Emu.
rewrite -Emu; apply: IH => //; rewrite E1 // => H.
  by have := Hw H; rewrite /= (negbTE (E2 H)).
by have := Hs H; rewrite /= (negbTE (E3 H)).
Qed.

Lemma calm_thread s a s' : live s -> ~~ is_main a -> step contrib s a = Ok s' -> calm s ->
  [/\ live s', calm s', s_pc s' = s_pc s & mu s' = mu s].
Proof.
move=> Hl Ha Hst Hc; have [Hl' H] := thread_live Hl Ha Hst.
case: H => [->|t x E1 E2 R _ Hm _] //.
have Hc' : calm s' by have := repl_sum R; rewrite /calm in Hc *; lia.
by split=> //; rewrite /mu Hc Hc' /wmain E1 E2.
Qed.

(** Without work left to the threads, the main thread makes progress. *)
Lemma seg_calm acts s s' : live s -> calm s -> s_pc s <> PDone -> has is_main acts ->
  run contrib s acts = Ok s' ->
  mu s' < mu s \/ exists b, [/\ s_pc s = PFillFinished b, s_pc s' = PFillReady b, mu s' = mu s & calm s'].
Proof.
move=> Hl Hc Hd; have Hc0 : tsum (ts s) = 0 by [].
have ready : forall acts s s' b, live s -> calm s -> s_pc s = PFillReady b -> run contrib s acts = Ok s' ->
    mu s' < mu s \/ [/\ s_pc s' = PFillReady b, mu s' = mu s & calm s'].
  move=> {acts s s' Hl Hc Hd Hc0}; elim=> [|a acts IH] s s' b Hl Hc Hp; first by case=> <-; right.
  move=> /run_cons[s1 Hst Hrun]; case Ha: (is_main a).
    case: a Ha Hst => //= save _ /(main_live Hl)[Hl1]; case=> [H|_ _ _|b' _ _|_]; rewrite ?Hp //.
      by left; apply: leq_ltn_trans H; have [] := run_live Hl1 Hrun.
    by rewrite Hc.
  have [|Hl1 Hc1 Hp1 Hm1] := calm_thread Hl _ Hst Hc; first by rewrite Ha.
  by rewrite -Hm1; apply: IH Hrun => //; rewrite Hp1.
elim: acts s Hl Hc Hd {Hc0} => [|a acts IH] s Hl Hc Hd //= Hmain /run_cons[s1 Hst Hrun].
case Ha: (is_main a) Hmain => /= Hmain.
  case: a Ha Hst => //= save _ /(main_live Hl)[Hl1]; case=> [H|_ _ _|b' E1 E2 E3 E4|_ //].
  - by left; apply: leq_ltn_trans H; have [] := run_live Hl1 Hrun.
  - by rewrite Hc.
  have Hc1 : calm s1 by rewrite /calm E1.
  have [H|[H1 H2 H3]] := ready _ _ _ _ Hl1 Hc1 E4 Hrun; rewrite -E2; first by left.
  by right; exists b'.
have [|Hl1 Hc1 Hp1 Hm1] := calm_thread Hl _ Hst Hc; first by rewrite Ha.
by rewrite -Hm1 -Hp1; apply: IH Hrun => //; rewrite Hp1.
Qed.

Lemma seg_done acts s s' : live s -> s_pc s = PDone -> run contrib s acts = Ok s' -> s_pc s' = PDone.
Proof.
elim: acts s => [|a acts IH] s Hl Hp; first by case=> <-.
move=> /run_cons[s1 Hst Hrun]; have [Hl1 _] := step_live Hl Hst; apply: IH Hrun => //.
case Ha: (is_main a); first by case: a Ha Hst => //= save _; rewrite /main_step Hp => -[<-].
have [|_] := thread_live Hl _ Hst; first by rewrite Ha.
by case=> [->|t x ->].
Qed.

Lemma round_one acts s s' : live s -> full_round n acts -> s_pc s <> PDone -> run contrib s acts = Ok s' ->
  mu s' < mu s \/ exists b, [/\ s_pc s = PFillFinished b, s_pc s' = PFillReady b, mu s' = mu s & calm s'].
Proof.
move=> Hl /andP[Hmain /allP Hthr] Hd Hrun.
case: (posnP (tsum (ts s))) => [Hc|/tsum_gt0[t Ht Hm]]; first exact: (seg_calm Hl Hc Hd Hmain Hrun).
have [_ Hsz _] := Hl; rewrite Hsz in Ht.
have /andP[H1 H2] := Hthr t (etrans (mem_iota 0 n t) Ht).
by left; apply: (seg_thread Ht Hl Hm) Hrun.
Qed.

Lemma is_done (x : pc) : {x = PDone} + {x <> PDone}.
Proof. by case: x; (by left) || (by right). Qed.

Lemma run_catE a b s1 s2 : run contrib s1 a = Ok s2 -> run contrib s1 (a ++ b) = run contrib s2 b.
Proof. by rewrite /run; elim: a s1 => [|x a IH] s1 /=; [case=> -> | case: (step _ _ _) => //= s3; apply: IH]. Qed.

Lemma rounds_end k s segs : live s -> mu s <= k -> 2 * k < size segs -> all (full_round n) segs ->
  exists2 s', run contrib s (flatten segs) = Ok s' & s_pc s' = PDone.
Proof.
have tot acts s1 : live s1 -> exists2 s2, run contrib s1 acts = Ok s2 & live s2.
  move=> Hl; have [G _ _] := Hl; have [s2 H _] := run_ok Hmap Hjobs acts G.
  by exists s2 => //; have [] := run_live Hl H.
have fin s1 : s_pc s1 = PDone -> live s1 -> forall sg, exists2 s', run contrib s1 (flatten sg) = Ok s' & s_pc s' = PDone.
  move=> Hp Hl sg; have [s2 H2 _] := tot (flatten sg) s1 Hl; exists s2 => //; exact: (seg_done Hl Hp H2).
elim: k s segs => [|k IH] s segs Hl Hk; case: (is_done (s_pc s)) => Hd Hsz Hall; try exact: fin.
  case: segs Hsz Hall => [|a segs] //= _ /andP[Ha _].
  have [s1 H1 Hl1] := tot a s Hl; have [|[b [E _ _ _]]] := round_one Hl Ha Hd H1; first by lia.
  by move: Hk; rewrite /mu /wmain E /=; lia.
case: segs Hsz Hall => [|a [|b segs]] //= Hsz; try lia; case/and3P=> Ha Hb Hall.
have [s1 H1 Hl1] := tot a s Hl; have [s2 H2 Hl2] := tot b s1 Hl1.
have Hm2 := run_live Hl1 H2.
rewrite (run_catE _ H1) (run_catE _ H2).
case: (is_done (s_pc s1)) => Hd1.
  by apply: fin => //; exact: (seg_done Hl1 Hd1 H2).
have Hlt : mu s2 < mu s.
  have [|[x [E1 E2 E3 E4]]] := round_one Hl Ha Hd H1; first by lia.
  by have [|[y []]] := round_one Hl1 Hb Hd1 H2; [lia | rewrite E2].
by apply: IH => //; lia.
Qed.

Lemma program_ends kinds acts s : size kinds = n ->
  run contrib (start kinds F0 (main_program jobs)) acts = Ok s ->
  exists k, forall segs, k <= size segs -> all (full_round n) segs ->
    exists2 s', run contrib s (flatten segs) = Ok s' & s_pc s' = PDone.
Proof.
move=> Hk Hrun; have [Hl|//] := good_start kinds; have [Hl' _] := run_live Hl Hrun.
by exists (2 * mu s).+1 => segs; exact: (rounds_end Hl').
Qed.
End Progress.
