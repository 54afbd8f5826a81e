(** Lost notifications are the only reason for which the program does not end. *)
Set Warnings "-notation-overridden,-ambiguous-paths".
From mathcomp Require Import all_ssreflect zify.
From Verif Require Import Res ResFacts OMap OMapFacts OMapPerm Store StoreSpec StoreProofs FilesProofs
  Pool PoolProofs Standalone StandaloneSpec Account StandaloneProofs StandaloneTheorems Progress.

Set Implicit Arguments.
Unset Strict Implicit.
Unset Printing Implicit Defensive.

Section Lost.
Variable contrib : nat -> block -> store.
Hypothesis Hmap : forall c b, is_map (contrib c b).
Variables (jobs : seq job) (F0 : seq file).
Hypothesis Hjobs : jobs_wf jobs.
Variable n : nat.
Hypothesis Hn : 0 < n.
Notation ts s := (p_threads (s_proc s)).
Notation live := (live contrib jobs F0 n).
Notation mu := (mu n).

(** A thread that is shutting down has returned or is the one that the main thread deals with. *)
Definition closed_ok (s : state) : Prop :=
  forall u, u < size (ts s) -> t_shut (nth thread0 (ts s) u) ->
    t_phase (nth thread0 (ts s) u) = TExit \/ s_pc s = PShutNotify u \/ s_pc s = PJoin u.

Lemma closed_same s s' : closed_ok s -> ts s' = ts s ->
  (forall u, s_pc s = PShutNotify u \/ s_pc s = PJoin u -> s_pc s' = PShutNotify u \/ s_pc s' = PJoin u) -> closed_ok s'.
Proof.
move=> H E Hp u; rewrite E => Hu Hs; case: (H u Hu Hs) => [|/Hp]; by [left | right].
Qed.

Lemma closed_repl s s' t x : closed_ok s -> repl (s_proc s) (s_proc s') t x ->
  t_shut x = t_shut (nth thread0 (ts s) t) -> (t_phase (nth thread0 (ts s) t) = TExit -> t_phase x = TExit) ->
  (forall u, s_pc s = PShutNotify u \/ s_pc s = PJoin u -> s_pc s' = PShutNotify u \/ s_pc s' = PJoin u) -> closed_ok s'.
Proof.
move=> H R Hs Hp Hpc u; rewrite (repl_size R) (repl_nth u R) => Hu; case: eqP => [E|_].
  by rewrite Hs -E => /(H u Hu)[|/Hpc]; [rewrite E => /Hp; left | right].
by move=> /(H u Hu)[|/Hpc]; [left | right].
Qed.

Lemma thread_exit p t p' : thread_step contrib p t = Ok p' -> t_phase (nth thread0 (p_threads p) t) = TExit -> p' = p.
Proof. by rewrite /thread_step => + E; rewrite E; case: ifP => _ [<-]. Qed.

Lemma thread_wait p t p' : thread_step contrib p t = Ok p' -> t_phase (nth thread0 (p_threads p) t) = TWait -> p' = p.
Proof. by rewrite /thread_step => + E; rewrite E; case: ifP => _ [<-]. Qed.

Lemma notify_exit p t : t_phase (nth thread0 (p_threads p) t) = TExit -> notify p t = p.
Proof. by rewrite /notify => ->. Qed.

Lemma closed_step s a s' : live s -> closed_ok s -> step contrib s a = Ok s' -> closed_ok s'.
Proof.
move=> Hl C Hst; have [G Hsz S] := Hl.
have [N [past [d [c [P [rest [fut I]]]]]]] := G.
have Hopen : ~~ closing (s_pc s) -> forall u, u < size (ts s) -> ~~ t_shut (nth thread0 (ts s) u).
  by move=> Hc u Hu; apply/negP => Hs; have [_ H _] := S; have := H u Hu Hs; rewrite (negbTE Hc).
case: a Hst => [save|t|t] /=; last first.
- move=> [<-]; case: (ltnP t (size (ts s))) => Ht; last first.
    by rewrite /wake notify_out -?leqNgt //; apply: closed_same C _ _.
  case Ex: (t_phase (nth thread0 (ts s) t)) => [||||b m|b|]; try by rewrite /wake /notify Ex; apply: closed_same C _ _.
  have [x [R H1 _ _ _]] := notify_repl Ht.
  by apply: (@closed_repl _ (with_proc s (notify (s_proc s) t)) _ _ C R H1) => //; rewrite Ex.
- case: (ltnP t (size (ts s))) => Ht; last first.
    by rewrite /thread_step ltnNge Ht /= => -[<-]; apply: closed_same C _ _.
  case E: (thread_step _ _ _) => [p'| | |] //= -[<-].
  have [x [R H1 H2 _ _]] := thread_repl (i_ok I) Ht E.
  have [Hx|Hx] : t_phase (nth thread0 (ts s) t) = TExit \/ t_phase (nth thread0 (ts s) t) <> TExit.
  + by case: (t_phase _) => [||||b m|b|]; by [left | right].
  + by rewrite (thread_exit E Hx); apply: closed_same C _ _.
  by apply: (@closed_repl _ (with_proc s p') _ _ C R H1).
(* the main thread *)
have trivial x : ts x = ts s -> ~~ closing (s_pc s) -> closed_ok x.
  by move=> E Hc u; rewrite E => Hu Hs; have := Hopen Hc u Hu; rewrite Hs.
have open x t y : repl (s_proc s) (s_proc x) t y -> t_shut y = t_shut (nth thread0 (ts s) t) -> ~~ closing (s_pc s) -> closed_ok x.
  move=> R Hs Hc u; rewrite (repl_size R) (repl_nth u R) => Hu; case: eqP => [E|_]; last by rewrite (negbTE (Hopen Hc u Hu)).
  by rewrite Hs -E (negbTE (Hopen Hc u Hu)).
rewrite /main_step; case Epc: (s_pc s) => [|b|b|b|b|b|t b|k|k|k r st|k r|k|t|t|t|].
- by case: (prog s) => [|[d' c'|b|] cs] [<-]; apply: trivial; rewrite ?Epc.
- by case=> <-; apply: trivial; rewrite ?Epc.
- by case: (file_store s) => [[d' r]|] // -[<-]; apply: trivial; rewrite ?Epc.
- by have [|s1 [-> E1 E2 E3 _]] := flush_blocks I; [rewrite Epc | case=> <-; apply: trivial; rewrite ?Epc].
- have := flush_ready_threads (s_proc s); case: (flush_ready _) => [p [c1 o1]] /= E -[<-].
  by apply: trivial; rewrite ?Epc.
- case: ifP => // _; case E: (pool_assign _ _ _) => [[p t]| | |] //= -[<-].
  have [x [R Hs Hp]] := assign_repl E; set s1 := goto _ _.
  by apply: (@open s1 t x) => //; rewrite Epc.
- case=> <-; set s1 := goto _ _; case: (ltnP t (size (ts s))) => Ht; last first.
    by apply: trivial; rewrite /= ?notify_out -?leqNgt ?Epc.
  have [x [R Hs _ _ _]] := notify_repl Ht; by apply: (@open s1 t x) => //; rewrite Epc.
- by have [|s1 [-> E1 E2 E3 _]] := flush_blocks I; [rewrite Epc | case=> <-; apply: trivial; rewrite ?Epc].
- case: (file_store s) => [fs|]; last by case=> <-; apply: trivial; rewrite ?Epc.
  have := flush_global_threads (s_proc s); case: (flush_global _) => [p [r st]] /= Eth [<-].
  by apply: trivial; rewrite ?Epc.
- by case=> <-; apply: trivial; rewrite ?Epc.
- by case=> <-; apply: trivial; rewrite ?Epc.
- by case: k Epc => [b|d' c'|] Epc [<-]; apply: trivial; rewrite ?Epc.
- case: ltnP => Ht [<-]; last first.
    by apply: (closed_same C) => // u; rewrite Epc => -[].
  set s1 := goto _ _; have [x [R Hs Hp]] := shutdown_repl Ht; have R' : repl (s_proc s) (s_proc s1) t x by [].
  move=> u; rewrite (repl_size R') (repl_nth u R') => Hu; case: eqP => [->|_]; first by right; left.
  by move=> /(C u Hu)[|]; [left | rewrite Epc => -[]].
- case=> <-; set s1 := goto _ _; have [_ _ S3] := S; rewrite Epc in S3; have [Ht Hsh] := S3.
  have Hpc u : s_pc s = PShutNotify u \/ s_pc s = PJoin u -> s_pc s1 = PShutNotify u \/ s_pc s1 = PJoin u.
    by rewrite Epc => -[[<-]|//]; right.
  have [x [R Hs _ _ _]] := notify_repl Ht; have R' : repl (s_proc s) (s_proc s1) t x by [].
  apply: (closed_repl C R' Hs) => // Ex.
  by have := repl_nth t R'; rewrite eqxx /s1 /= notify_exit // => <-.
- case Eph: (t_phase _) => [||||b m|b|] [<-] //.
  move=> u Hu /(C u Hu)[|]; first by left.
  by rewrite Epc => -[//|[<-]]; left.
- by case=> <-.
Qed.

Lemma closed_run acts s s' : live s -> closed_ok s -> run contrib s acts = Ok s' -> closed_ok s'.
Proof.
elim: acts s => [|a acts IH] s Hl C; first by case=> <-.
move=> /run_cons[s1 Hst Hrun]; have [Hl1 _] := step_live Hmap Hjobs Hn Hl Hst.
by apply: IH Hrun => //; exact: closed_step Hst.
Qed.

Lemma asleep_cases s t : live s -> closed_ok s -> stranded s t ->
  [/\ t_queue (nth thread0 (ts s) t) <> [::], t \notin p_idle (s_proc s) & ~~ closing (s_pc s)] \/ s_pc s = PJoin t.
Proof.
move=> [G Hsz S] C [Ht Hw Hqs Hpc]; have [N [past [d [c [P [rest [fut I]]]]]]] := G.
case: Hqs => Hq; last first.
  by right; case: (C t Ht Hq) => [|[|//]]; [rewrite Hw | move=> E; rewrite E in Hpc].
left; have [H1 _ _] := ok_thr (i_ok I) Ht.
have Ho : t \in owners (s_proc s).
  move: H1; rewrite /holding /todo_of /waiting Hw /= !cats0; case: (t_queue _) Hq => [|bc [|bc' q]] //= _.
  by move=> H; exact: (map_f snd H).
split=> //.
  have := all_uniq (i_ok I); rewrite cat_uniq => /and3P[_ /hasPn/(_ t) H _].
  by apply: H; rewrite mem_cat Ho orbT.
apply/negP => Hc; have [|Hk _] := i_quiet I; first by case: (s_pc s) Hc.
by move: Ho; rewrite /owners; move: Hk; rewrite /keys; case: (p_busy _).
Qed.

Lemma assign_idle p b o p' t : pool_assign p b o = Ok (p', t) -> t \in p_idle p.
Proof.
rewrite /pool_assign; case: (p_idle p) => [|t0 idle] //; case: o; rewrite /bind; case: (vget _ _) => [thr| | |] //.
  by case: ifP => // _ [_ <-]; rewrite inE eqxx.
case: ifP => // _ [_ <-]; exact: mem_last.
Qed.

(** Nothing but a spurious wakeup wakes it. *)
Lemma asleep_step s a s' t : live s -> closed_ok s -> stranded s t -> not_woken t a -> step contrib s a = Ok s' -> stranded s' t.
Proof.
move=> Hl C Ha Hnw Hst; have Hcs := asleep_cases Hl C Ha; have [G Hsz S] := Hl.
have [N [past [d [c [P [rest [fut I]]]]]]] := G; have [Ht Hw Hqs Hpc] := Ha.
have keep x : ts x = ts s -> (if s_pc x is (PNotify _ _ | PShutNotify _) then false else true) -> stranded x t.
  by move=> E Hp; split; rewrite ?E //; case: (s_pc x) Hp.
have other x u y : repl (s_proc s) (s_proc x) u y -> u <> t ->
    match s_pc x with PNotify t' _ | PShutNotify t' => t' <> t | _ => True end -> stranded x t.
  move=> R Nu Hp; have En := repl_nth t R; move: En; case: eqP => [Eu|_ En]; first by case: Nu.
  by split; rewrite ?(repl_size R) ?En.
case: a Hnw Hst => [save|u|u] /= Hnw.
- case: Hcs => [[Hq Hid Hc]|Ej]; last first.
    by rewrite /main_step Ej Hw => -[<-].
  rewrite /main_step; case Epc: (s_pc s) Hc Hpc => [|b|b|b|b|b|u b|k|k|k r st|k r|k|u|u|u|] // Hc Hpc.
  + by case: (prog s) => [|[d' c'|b|] cs] [<-] //; apply: keep; rewrite ?Epc.
  + by case=> <-; apply: keep; case: (save).
  + case: (file_store s) => [[d' r]|] // -[<-]; apply: keep => //=; by case: ifP => //; case: ifP.
  + by have [|s1 [-> E1 E2 E3 _]] := flush_blocks I; [rewrite Epc | case=> <-; apply: keep].
  + have := flush_ready_threads (s_proc s); case: (flush_ready _) => [p [c1 o1]] /= E -[<-].
    by apply: keep => //=; case: ifP.
  + case: ifP => // _; case E: (pool_assign _ _ _) => [[p u]| | |] //= -[<-].
    have [x [R Hs Hp]] := assign_repl E; set s1 := goto _ _.
    have Nu : u <> t by move=> Eu; move/negP: Hid; apply; rewrite -Eu; exact: assign_idle E.
    by apply: (@other s1 u x).
  + case=> <-; set s1 := goto _ _; case: (ltnP u (size (ts s))) => Hu; last first.
      by apply: keep; rewrite /= ?notify_out -?leqNgt.
    have [x [R Hs _ _ _]] := notify_repl Hu; by apply: (@other s1 u x).
  + have [|s1 [-> E1 E2 E3 _]] := flush_blocks I; first by rewrite Epc.
    by case=> <-; apply: keep => //=; case: (assigned s1).
  + case: (file_store s) => [fs|]; last by case=> <-; apply: keep.
    by have := flush_global_threads (s_proc s); case: (flush_global _) => [p [r st]] /= Eth [<-]; apply: keep.
  + by case=> <-; apply: keep.
  + by case=> <-; apply: keep.
  + by case: k Epc Hc => [b|d' c'|] Epc Hc [<-]; apply: keep.
- case: (ltnP u (size (ts s))) => Hu; last first.
    by rewrite /thread_step ltnNge Hu /= => -[<-].
  case E: (thread_step _ _ _) => [p'| | |] //= -[<-].
  case: (u =P t) => [Eu|Nu]; first by rewrite Eu in E; rewrite (thread_wait E Hw).
  have [x [R _ _ _ _]] := thread_repl (i_ok I) Hu E.
  by apply: (@other (with_proc s p') u x).
case=> <-; case: (ltnP u (size (ts s))) => Hu; last first.
  by rewrite /wake notify_out -?leqNgt.
have [x [R _ _ _ _]] := notify_repl Hu.
by apply: (@other (with_proc s (wake (s_proc s) u)) u x) => //; apply/eqP.
Qed.

Lemma asleep_run acts s s' t : live s -> closed_ok s -> stranded s t -> all (not_woken t) acts ->
  run contrib s acts = Ok s' -> stranded s' t.
Proof.
elim: acts s => [|a acts IH] s Hl C Ha; first by move=> _ [<-].
move=> /= /andP[H1 H2] /run_cons[s1 Hst Hrun]; have [Hl1 _] := step_live Hmap Hjobs Hn Hl Hst.
by apply: IH Hrun => //; [exact: closed_step Hst | exact: (asleep_step Hl C Ha H1 Hst)].
Qed.

Definition no_wake (a : action) : bool := if a is Wake _ then false else true.
Lemma no_wake_all t acts : all no_wake acts -> all (not_woken t) acts.
Proof. by apply: sub_all => -[]. Qed.

Lemma pc_main s a s' : live s -> step contrib s a = Ok s' -> ~~ is_main a -> s_pc s' = s_pc s.
Proof.
by move=> Hl Hst Ha; have [_] := thread_live Hmap Hjobs Hn Hl Ha Hst; case=> [->|t x ->].
Qed.

(** A thread with work left makes progress when it is run, or its notification was lost. *)
Lemma seg_lost t acts s s' : t < n -> live s -> closed_ok s -> 0 < tmeas (nth thread0 (ts s) t) ->
  all no_wake acts -> has is_main acts ->
  (t_phase (nth thread0 (ts s) t) <> TWait -> has (is_step t) acts) ->
  run contrib s acts = Ok s' -> mu s' < mu s \/ stranded s' t.
Proof.
move=> Ht Hl C Hm Hnw Hmain Hs Hrun; have [_ Hsz _] := Hl.
case Eph: (t_phase (nth thread0 (ts s) t)) Hs => [||||b m|b|] Hs; try by left;
  apply: (seg_thread Hmap Hjobs Hn Ht Hl Hm) Hrun; rewrite Eph //; exact: Hs.
have Hq : t_queue (nth thread0 (ts s) t) <> [::] \/ t_shut (nth thread0 (ts s) t) = true.
  move: Hm; rewrite /tmeas /holding /todo_of /waiting Eph /= !cats0; case: (t_queue _) => [|bc q] /=; last by left.
  by case: (t_shut _) => // _; right.
have [Hpc|Hpc] : match s_pc s with PNotify t' _ | PShutNotify t' => t' = t | _ => False end \/
                 match s_pc s with PNotify t' _ | PShutNotify t' => t' <> t | _ => True end.
- by case: (s_pc s) => [|?|?|?|?|?|u ?|?|?|? ? ?|? ?|?|?|u|?|]; try (by right); case: (u =P t) => [->|]; by [left | right].
- left; have Hns : ~~ spinning (s_pc s) /\ s_pc s <> PDone /\ forall b, s_pc s <> PFillFinished b.
    by case: (s_pc s) Hpc.
  move: Hns => {Hq Hpc Hs Hm Eph Hnw C Hsz}; elim: acts s Hl Hmain Hrun => [|a acts IH] s Hl //= Hmain.
  move=> /run_cons[s1 Hst Hrun] [H1 [H2 H3]]; have [Hl1 Hm1] := step_live Hmap Hjobs Hn Hl Hst.
  case Ha: (is_main a) Hmain => /= Hmain.
    have [_ Hm2] := run_live Hmap Hjobs Hn Hl1 Hrun; apply: leq_ltn_trans Hm2 _.
    case: a Ha Hst => //= save _ /(main_live Hjobs Hn Hl)[_]; case=> // [_ _ Hsp|b _ _ E _].
      by rewrite Hsp in H1.
    by case: (H3 b).
  have Ep := pc_main Hl Hst (negbT Ha).
  by apply: leq_trans Hm1; apply: IH Hrun _ => //; rewrite Ep.
right; apply: (asleep_run Hl C) Hrun; last exact: no_wake_all.
by split=> //; rewrite Hsz.
Qed.

Lemma plain_one acts s s' : live s -> closed_ok s -> plain_round n acts -> s_pc s <> PDone -> run contrib s acts = Ok s' ->
  [\/ mu s' < mu s, exists b, [/\ s_pc s = PFillFinished b, s_pc s' = PFillReady b, mu s' = mu s & calm s'] |
      exists t, stranded s' t].
Proof.
move=> Hl C /and3P[Hmain /allP Hthr Hnw] Hd Hrun.
case: (posnP (tsum (ts s))) => [Hc|/tsum_gt0[t Ht Hm]].
  by have [|] := seg_calm Hmap Hjobs Hn Hl Hc Hd Hmain Hrun; [constructor 1 | constructor 2].
have [_ Hsz _] := Hl; rewrite Hsz in Ht.
have H2 := Hthr t (etrans (mem_iota 0 n t) Ht).
by have [|H] := seg_lost Ht Hl C Hm Hnw Hmain (fun _ => H2) Hrun; [constructor 1 | constructor 3; exists t].
Qed.

Lemma plain_end k s segs : live s -> closed_ok s -> mu s <= k -> 2 * k < size segs -> all (plain_round n) segs ->
  exists2 s', run contrib s (flatten segs) = Ok s' & s_pc s' = PDone \/ exists t, stranded s' t.
Proof.
have tot acts s1 : live s1 -> exists2 s2, run contrib s1 acts = Ok s2 & live s2.
  move=> Hl; have [G _ _] := Hl; have [s2 H _] := run_ok Hmap Hjobs acts G.
  by exists s2 => //; have [] := run_live Hmap Hjobs Hn Hl H.
have fin s1 : s_pc s1 = PDone -> live s1 -> forall sg, exists2 s', run contrib s1 (flatten sg) = Ok s' & s_pc s' = PDone \/ exists t, stranded s' t.
  move=> Hp Hl sg; have [s2 H2 _] := tot (flatten sg) s1 Hl; exists s2 => //; left; exact: (seg_done Hmap Hjobs Hn Hl Hp H2).
have sleep s1 t : live s1 -> closed_ok s1 -> stranded s1 t -> forall sg, all (plain_round n) sg ->
    exists2 s', run contrib s1 (flatten sg) = Ok s' & s_pc s' = PDone \/ exists t, stranded s' t.
  move=> Hl C Ha sg Hsg; have [s2 H2 _] := tot (flatten sg) s1 Hl; exists s2 => //; right; exists t.
  apply: (asleep_run Hl C Ha) H2; apply: no_wake_all; elim: sg Hsg => [|a sg IH] //= /andP[/and3P[_ _ H] /IH].
  by rewrite all_cat H.
elim: k s segs => [|k IH] s segs Hl C Hk; case: (is_done (s_pc s)) => Hd Hsz Hall; try exact: fin.
  case: segs Hsz Hall => [|a segs] //= _ /andP[Ha Hall].
  have [s1 H1 Hl1] := tot a s Hl; rewrite (run_catE _ H1); have C1 := closed_run Hl C H1.
  have [|[b [E _ _ _]]|[t Hs]] := plain_one Hl C Ha Hd H1; first by lia.
    by move: Hk; rewrite /Progress.mu /wmain E /=; lia.
  exact: (sleep _ t).
case: segs Hsz Hall => [|a [|b segs]] //= Hsz; try lia; case/and3P=> Ha Hb Hall.
have [s1 H1 Hl1] := tot a s Hl; have [s2 H2 Hl2] := tot b s1 Hl1.
have C1 := closed_run Hl C H1; have C2 := closed_run Hl1 C1 H2.
have Hm2 := run_live Hmap Hjobs Hn Hl1 H2; have Hm1 := run_live Hmap Hjobs Hn Hl H1.
rewrite (run_catE _ H1).
case: (is_done (s_pc s1)) => Hd1.
  by have := fin _ Hd1 Hl1 (b :: segs).
have [Hlt|[x [E1 E2 E3 E4]]|[t Hs]] := plain_one Hl C Ha Hd H1; last first.
- by apply: (sleep _ t Hl1 C1 Hs (b :: segs)); rewrite /= Hb.
- rewrite (run_catE _ H2); have [Hlt|[y []]|[t Hs]] := plain_one Hl1 C1 Hb Hd1 H2; last by exact: (sleep _ t).
  + by apply: IH => //; lia.
  + by rewrite E2.
by rewrite (run_catE _ H2); apply: IH => //; lia.
Qed.

Lemma ends_or_lost kinds acts s : size kinds = n ->
  run contrib (start kinds F0 (main_program jobs)) acts = Ok s ->
  exists k, forall segs, k <= size segs -> all (plain_round n) segs ->
    exists2 s', run contrib s (flatten segs) = Ok s' & s_pc s' = PDone \/ exists t, stranded s' t.
Proof.
move=> Hk Hrun; have [Hl|//] := good_start contrib jobs F0 n kinds; have [Hl' _] := run_live Hmap Hjobs Hn Hl Hrun.
have C : closed_ok (start kinds F0 (main_program jobs)).
  by move=> u /=; rewrite size_map => Hu; rewrite (nth_map false).
by exists (2 * mu s).+1 => segs; apply: (plain_end Hl') => //; exact: (closed_run Hl C Hrun).
Qed.

Lemma lost_for_ever kinds acts s t : size kinds = n ->
  run contrib (start kinds F0 (main_program jobs)) acts = Ok s -> stranded s t ->
  forall acts' s', all (not_woken t) acts' -> run contrib s acts' = Ok s' -> stranded s' t /\ s_pc s' <> PDone.
Proof.
move=> Hk Hrun Ha acts' s' Hnw Hr; have [Hl|//] := good_start contrib jobs F0 n kinds.
have [Hl' _] := run_live Hmap Hjobs Hn Hl Hrun.
have C0 : closed_ok (start kinds F0 (main_program jobs)).
  by move=> u /=; rewrite size_map => Hu; rewrite (nth_map false).
have C := closed_run Hl C0 Hrun.
have Ha' := asleep_run Hl' C Ha Hnw Hr; split=> // Ed.
have [Hl2 _] := run_live Hmap Hjobs Hn Hl' Hr; have C2 := closed_run Hl' C Hr.
by case: (asleep_cases Hl2 C2 Ha') => [[_ _]|]; rewrite Ed.
Qed.
End Lost.
