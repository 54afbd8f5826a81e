(** Invariant of one process: every thread is idle, ready or busy with exactly one block. *)
Set Warnings "-notation-overridden,-ambiguous-paths".
From mathcomp Require Import all_ssreflect zify.
From Verif Require Import Res ResFacts OMap OMapFacts OMapPerm Store Pool.

Set Implicit Arguments.
Unset Strict Implicit.
Unset Printing Implicit Defensive.

(** The blocks a thread has not yet added to the shared store, and the block it is busy with. *)
Definition waiting (thr : thread) : seq (block * option nat) :=
  t_queue thr ++ (if t_phase thr is TWork b c then [:: (b, c)] else [::]).
Definition todo_of (thr : thread) : seq block := [seq bc.1 | bc <- waiting thr].
Definition holding (thr : thread) : seq block :=
  todo_of thr ++ (if t_phase thr is TFlushed b then [:: b] else [::]).
Definition pend (p : proc) : seq block := flatten [seq todo_of thr | thr <- p_threads p].
Definition keys (p : proc) : seq block := [seq bt.1 | bt <- p_busy p].
Definition owners (p : proc) : seq nat := [seq bt.2 | bt <- p_busy p].

Definition hold_ok (busy : seq (block * nat)) (t : nat) (h : seq block) : Prop :=
  match h with [::] => t \notin [seq bt.2 | bt <- busy] | [:: b] => (b, t) \in busy | _ => False end.
Definition thr_ok (busy : seq (block * nat)) (cfg : option nat) (t : nat) (thr : thread) : Prop :=
  [/\ hold_ok busy t (holding thr), t_phase thr = TPop -> t_queue thr <> [::] &
      all (fun bc => (bc.2 == cfg) && isSome bc.2) (waiting thr)].

(** [g] and [c] are the numbers of idle OpenCL and CPU threads. *)
Record proc_ok (p : proc) (g c : nat) : Prop := ProcOk
  { ok_perm : perm_eq (p_idle p ++ p_ready p ++ owners p) (iota 0 (size (p_threads p)));
    ok_busy : om_wf block_lt (p_busy p);
    ok_thr : forall t, t < size (p_threads p) -> thr_ok (p_busy p) (p_config p) t (nth thread0 (p_threads p) t);
    ok_idle : exists G C, [/\ p_idle p = G ++ C, size G = g, size C = c,
       all (fun t => t_opencl (nth thread0 (p_threads p) t)) G &
       all (fun t => ~~ t_opencl (nth thread0 (p_threads p) t)) C] }.

(** ** Replacing one thread *)
Lemma size_upd p t x : t < size (p_threads p) -> size (p_threads (upd p t x)) = size (p_threads p).
Proof. by move=> Ht; rewrite size_set_nth; apply/maxn_idPr. Qed.

Lemma nth_upd p t x t' : nth thread0 (p_threads (upd p t x)) t' = if t' == t then x else nth thread0 (p_threads p) t'.
Proof. by rewrite nth_set_nth. Qed.

Lemma flatten_set (T : Type) (U : eqType) (f : T -> seq U) x0 ts t x : t < size ts ->
  perm_eq (flatten [seq f y | y <- set_nth x0 ts t x] ++ f (nth x0 ts t)) (flatten [seq f y | y <- ts] ++ f x).
Proof.
elim: ts t => [|y ts IH] [|t] //= Ht.
  by apply/permP => a; rewrite !count_cat; lia.
by rewrite -!catA perm_cat2l; apply: IH.
Qed.

Lemma pend_upd p t x : t < size (p_threads p) ->
  perm_eq (pend (upd p t x) ++ todo_of (nth thread0 (p_threads p) t)) (pend p ++ todo_of x).
Proof. exact: flatten_set. Qed.

Lemma pendP p b : reflect (exists2 t, t < size (p_threads p) & b \in todo_of (nth thread0 (p_threads p) t)) (b \in pend p).
Proof.
apply: (iffP flattenP) => [[s /(nthP [::])[t]]|[t Ht Hb]].
  by rewrite size_map => Ht; rewrite (nth_map thread0) // => <- Hb; exists t.
exists (todo_of (nth thread0 (p_threads p) t)) => //.
by rewrite -(nth_map _ [::]) //; apply: mem_nth; rewrite size_map.
Qed.

Section Ok.
Variables (p : proc) (g c : nat).
Hypothesis Hok : proc_ok p g c.

Lemma pend_keys : {subset pend p <= keys p}.
Proof.
move=> b /pendP[t Ht Hb]; have [H _ _] := ok_thr Hok Ht.
move: H Hb; rewrite /hold_ok /holding; case: (todo_of _) => [|b1 [|b2 l]] //=.
by rewrite inE; case: (t_phase _) => [||||? ?|?|] //= H /eqP ->; exact: (map_f fst H).
Qed.

Lemma keys_uniq : uniq (keys p).
Proof. exact: (om_keys_uniq block_total (ok_busy Hok)). Qed.

Lemma all_uniq : uniq (p_idle p ++ p_ready p ++ owners p).
Proof. by rewrite (perm_uniq (ok_perm Hok)) iota_uniq. Qed.

Lemma all_lt t : t \in p_idle p ++ p_ready p ++ owners p -> t < size (p_threads p).
Proof. by rewrite (perm_mem (ok_perm Hok)) mem_iota. Qed.

Lemma hold_free t : t < size (p_threads p) -> t \notin owners p -> holding (nth thread0 (p_threads p) t) = [::].
Proof.
move=> Ht Hn; have [H _ _] := ok_thr Hok Ht.
case: (holding _) H => [|b [|b' l]] //= H; by rewrite (map_f snd H) in Hn.
Qed.
End Ok.

(** An update of a thread that keeps what it holds. *)
Lemma ok_upd p g c t x : proc_ok p g c -> t < size (p_threads p) ->
  let thr := nth thread0 (p_threads p) t in
  t_opencl x = t_opencl thr -> thr_ok (p_busy p) (p_config p) t x -> proc_ok (upd p t x) g c.
Proof.
move=> Hok Ht thr Hx Hthr; have Hsz := size_upd x Ht; split.
- by rewrite Hsz; exact: (ok_perm Hok).
- exact: (ok_busy Hok).
- move=> t'; rewrite Hsz nth_upd => Ht'; case: eqP => [->|_] //; exact: (ok_thr Hok).
- have [G [C [H1 H2 H3 H4 H5]]] := ok_idle Hok.
  have E t' : t_opencl (nth thread0 (p_threads (upd p t x)) t') = t_opencl (nth thread0 (p_threads p) t').
    by rewrite nth_upd; case: eqP => [->|].
  by exists G, C; split=> //; [rewrite (eq_all (a2 := fun t => t_opencl (nth thread0 (p_threads p) t)))|
     rewrite (eq_all (a2 := fun t => ~~ t_opencl (nth thread0 (p_threads p) t)))] => // i; rewrite E.
Qed.

Lemma goto_ok p g c t ph : proc_ok p g c -> t < size (p_threads p) ->
  let thr := nth thread0 (p_threads p) t in
  let x := Thread (t_opencl thr) (t_queue thr) ph (t_shut thr) in
  waiting x = waiting thr -> holding x = holding thr -> (ph = TPop -> t_queue thr <> [::]) ->
  proc_ok (upd p t x) g c /\ perm_eq (pend (upd p t x)) (pend p).
Proof.
move=> Hok Ht thr x Hw Hh Hp; have [H1 H2 H3] := ok_thr Hok Ht; split.
  by apply: ok_upd => //; split=> //; rewrite ?Hh ?Hw.
by have := pend_upd x Ht; rewrite -/thr /todo_of Hw perm_cat2r.
Qed.

(** What a step of a thread does to the process. *)
Variant effect (contrib : nat -> block -> store) (p p' : proc) : Prop :=
  | EffNone of perm_eq (pend p') (pend p) & p_busy p' = p_busy p & p_finished p' = p_finished p
      & p_shared p' = p_shared p & p_done p' = p_done p
  | EffShare b n of p_config p = Some n & perm_eq (pend p) (b :: pend p') & p_busy p' = p_busy p
      & p_finished p' = p_finished p & p_shared p' = (flush_to_static (p_shared p) (contrib n b) b).1
      & p_done p' = rcons (p_done p) (b, Some n)
  | EffFinish b of perm_eq (pend p') (pend p) & perm_eq (keys p) (b :: keys p')
      & p_finished p' = rcons (p_finished p) b & p_shared p' = p_shared p & p_done p' = p_done p.

Lemma finish_ok p g c t b : proc_ok p g c -> t < size (p_threads p) ->
  let thr := nth thread0 (p_threads p) t in t_phase thr = TFlushed b ->
  exists p', [/\ pool_finished (upd p t (Thread (t_opencl thr) (t_queue thr) TTest (t_shut thr))) b = Ok p',
    proc_ok p' g c, p_config p' = p_config p, size (p_threads p') = size (p_threads p) &
    forall contrib, effect contrib p p'].
Proof.
move=> Hok Ht thr Hph; set x := Thread _ _ _ _.
have [H1 H2 H3] := ok_thr Hok Ht; rewrite -/thr in H1 H2 H3.
have Hq : t_queue thr = [::].
  move: H1; rewrite /hold_ok /holding Hph /todo_of /waiting Hph cats0.
  by case: (t_queue thr) => [|y [|z l]].
have Hbt : (b, t) \in p_busy p by move: H1; rewrite /holding Hph /todo_of /waiting Hph Hq.
have Hf : om_find block_lt (p_busy p) b = Some t.
  by apply/eqP; rewrite -(om_find_in block_total) //; exact: (ok_busy Hok).
have Hperm := om_erase_perm block_total (ok_busy Hok) Hf.
have Ex : holding x = [::] by rewrite /holding /todo_of /waiting /= Hq.
have Ewx : waiting x = waiting thr by rewrite /waiting /= Hph.
rewrite /pool_finished /= Hf; eexists; split; first by reflexivity.
- split=> /=.
  + rewrite (size_upd x Ht); apply: perm_trans (ok_perm Hok); rewrite perm_cat2l /owners /=.
    rewrite -cats1 -catA perm_cat2l perm_sym; exact: (perm_map snd Hperm).
  + exact: (om_wf_erase block_total _ (ok_busy Hok)).
  + move=> t'; rewrite (size_upd x Ht) -[set_nth _ _ _ _]/(p_threads (upd p t x)) nth_upd => Ht'.
    have : uniq (owners p) by have := all_uniq Hok; rewrite !cat_uniq => /and3P[_ _ /and3P[]].
    rewrite /owners (perm_uniq (perm_map snd Hperm)).
    rewrite map_cons cons_uniq => /andP[Hnt _].
    case: eqP => [->|/eqP Hne].
      by split; rewrite ?Ex //= /waiting /= Hq.
    have [K1 K2 K3] := ok_thr Hok Ht'; split=> //.
    move: K1; case: (holding _) => [|b' [|b'' l]] //=.
      by apply: contra; apply: (mem_subseq (map_subseq snd (om_erase_subseq _ _ _))).
    by rewrite (perm_mem Hperm) inE xpair_eqE (negbTE Hne) andbF.
  + have [G [C [G1 G2 G3 G4 G5]]] := ok_idle Hok.
    have E t' : t_opencl (nth thread0 (set_nth thread0 (p_threads p) t x) t') = t_opencl (nth thread0 (p_threads p) t').
      by rewrite nth_set_nth /=; case: eqP => [->|].
    by exists G, C; split=> //; [rewrite (eq_all (a2 := fun t => t_opencl (nth thread0 (p_threads p) t)))|
       rewrite (eq_all (a2 := fun t => ~~ t_opencl (nth thread0 (p_threads p) t)))] => // i; rewrite E.
- by [].
- exact: size_upd.
move=> contrib; apply: (@EffFinish _ _ _ b) => //=.
- by have := pend_upd x Ht; rewrite -/thr /todo_of Ewx perm_cat2r.
- exact: (perm_map fst Hperm).
Qed.

Lemma thread_step_ok contrib p g c t : proc_ok p g c ->
  exists p', [/\ thread_step contrib p t = Ok p', proc_ok p' g c, p_config p' = p_config p,
    size (p_threads p') = size (p_threads p) & effect contrib p p'].
Proof.
move=> Hok; rewrite /thread_step; case: ltnP => Ht; last by exists p; split=> //; constructor.
have Hnone x : x = p -> effect contrib p x by move=> ->; constructor.
have [H1 H2 H3] := ok_thr Hok Ht.
set thr := nth thread0 (p_threads p) t in H1 H2 H3 *.
have Hgo ph : (if t_phase thr is (TWork _ _ | TFlushed _) then false else true) ->
    (if ph is (TWork _ _ | TFlushed _) then false else true) -> (ph = TPop -> t_queue thr <> [::]) ->
    let p' := upd p t (Thread (t_opencl thr) (t_queue thr) ph (t_shut thr)) in
    exists q, [/\ Ok p' = Ok q, proc_ok q g c, p_config q = p_config p,
      size (p_threads q) = size (p_threads p) & effect contrib p q].
  move=> Hph Hph' Hpop p'.
  have [||K1 K2] := @goto_ok p g c t ph Hok Ht _ _ Hpop.
  - by rewrite /waiting /= -/thr; case: (t_phase thr) Hph => //; case: (ph) Hph'.
  - by rewrite /holding /todo_of /waiting /= -/thr; case: (t_phase thr) Hph => //; case: (ph) Hph'.
  exists p'; split=> //; first exact: size_upd.
  by constructor.
case Eph: (t_phase thr) => [|||| b [n|]|b|].
- case: ifP => _; first by apply: Hgo; rewrite ?Eph.
  have HT : t_queue thr = [::] \/ t_queue thr <> [::] by case: (t_queue thr); [left|right].
  case: HT => Eq; first by rewrite {1}Eq; apply: Hgo; rewrite ?Eph.
  have -> A (u v : A) : match t_queue thr with [::] => u | _ => v end = v by case: (t_queue thr) Eq.
  by apply: Hgo; rewrite ?Eph.
- by apply: Hgo; rewrite ?Eph.
- by exists p; split=> //; exact: Hnone.
- have := H2 Eph; case Eq: (t_queue thr) => [|[b n] q] // _.
  set x := Thread _ _ _ _.
  have Hq : q = [::].
    by move: H1; rewrite /holding /todo_of /waiting Eph Eq cats0 /=; case: (q).
  have Ew : waiting x = waiting thr by rewrite /waiting /= Eph Eq Hq.
  have Eh : holding x = holding thr by rewrite /holding /todo_of Ew Eph.
  exists (upd p t x); split=> //.
  + by apply: ok_upd => //; split; rewrite ?Ew ?Eh.
  + exact: size_upd.
  by constructor=> //; have := pend_upd x Ht; rewrite -/thr /todo_of Ew perm_cat2r.
- set x := Thread _ _ _ _.
  have Hq : t_queue thr = [::].
    by move: H1; rewrite /holding /todo_of /waiting Eph map_cat /=; case: (t_queue thr) => [|? []].
  have Ex : holding x = holding thr by rewrite /holding /todo_of /waiting /= Eph Hq.
  have Hw : waiting x = [::] by rewrite /waiting /= Hq.
  have Hc : p_config p = Some n by move: H3; rewrite /waiting Eph Hq /= andbT => /andP[/eqP].
  eexists; split; first by reflexivity.
  + have : proc_ok (upd p t x) g c by apply: ok_upd => //; split; rewrite ?Ex ?Hw.
    by case.
  + by [].
  + exact: size_upd.
  apply: (@EffShare _ _ _ b n) => //=.
  rewrite -[pend (set_done _ _)]/(pend (upd p t x)).
  have := pend_upd x Ht; rewrite /todo_of Hw cats0 -/thr /waiting Eph Hq /= perm_sym => H.
  by apply: (perm_trans H); rewrite /= cats1 perm_rcons.
- by move: H3; rewrite /waiting Eph all_cat /= andbF /= andbF.
- by have [p' [K1 K2 K3 K4 K5]] := finish_ok Hok Ht Eph; exists p'.
- by exists p; split=> //; exact: Hnone.
Qed.

(** Two processes that agree on everything the accounting looks at. *)
Definition same (p p' : proc) : Prop :=
  [/\ perm_eq (pend p') (pend p), p_busy p' = p_busy p, p_finished p' = p_finished p &
      [/\ p_shared p' = p_shared p, p_done p' = p_done p, p_config p' = p_config p &
          size (p_threads p') = size (p_threads p)]].

Lemma same_refl p : same p p. Proof. by []. Qed.

Lemma notify_ok p g c t : proc_ok p g c -> proc_ok (notify p t) g c /\ same p (notify p t).
Proof.
move=> Hok; rewrite /notify; case Eph: (t_phase _) => [|||||b|]; try by split.
case: (ltnP t (size (p_threads p))) => Ht; last by rewrite nth_default in Eph.
have [||//|K1 K2] := @goto_ok p g c t TTest Hok Ht.
- by rewrite /waiting /= Eph.
- by rewrite /holding /todo_of /waiting /= Eph.
by split=> //; split=> //; split=> //; exact: size_upd.
Qed.

Lemma shutdown_ok p g c t : proc_ok p g c -> t < size (p_threads p) ->
  proc_ok (set_shutdown p t) g c /\ same p (set_shutdown p t).
Proof.
move=> Hok Ht; rewrite /set_shutdown; set thr := nth _ _ _; set x := Thread _ _ _ _.
have [H1 H2 H3] := ok_thr Hok Ht; split; first by apply: ok_upd.
split=> //; last by split=> //; exact: size_upd.
by have := pend_upd x Ht; rewrite -/thr perm_cat2r.
Qed.

Lemma config_ok p g c n : proc_ok p g c -> pend p = [::] -> proc_ok (set_config p (Some n)) g c.
Proof.
move=> [H1 H2 H3 H4] Hp; split=> // t Ht; have [K1 K2 K3] := H3 t Ht; split=> //=.
suff -> : waiting (nth thread0 (p_threads p) t) = [::] by [].
case E: (waiting _) => [|bc l] //; have : bc.1 \in pend p.
  by apply/pendP; exists t => //; rewrite /todo_of E inE eqxx.
by rewrite Hp.
Qed.

Lemma flush_ready_loop ts ready G C nc no g c :
  all (fun t => t_opencl (nth thread0 ts t)) G -> all (fun t => ~~ t_opencl (nth thread0 ts t)) C ->
  size G = g + no -> size C = c + nc ->
  let: (idle, (nc', no')) := foldl (flush_ready_step ts) (G ++ C, (nc, no)) ready in
  [/\ perm_eq idle ((G ++ C) ++ ready), nc' + no' = nc + no + size ready & exists G' C',
   [/\ idle = G' ++ C', size G' = g + no', size C' = c + nc',
    all (fun t => t_opencl (nth thread0 ts t)) G' & all (fun t => ~~ t_opencl (nth thread0 ts t)) C']].
Proof.
elim: ready G C nc no => [|t ready IH] G C nc no HG HC HgG HcC /=.
  by rewrite cats0 addn0; split=> //; exists G, C.
case Et: (t_opencl (nth thread0 ts t)).
  have := IH (t :: G) C nc no.+1; rewrite /= Et HG => /(_ isT HC).
  rewrite HgG addnS => /(_ erefl HcC); case: (foldl _ _ _) => [idle [nc' no']] [K1 K2 K3]; split=> //.
    by apply: (perm_trans K1); rewrite perm_sym -[t :: ready]cat1s perm_catCA.
  by rewrite K2; lia.
rewrite rcons_cat; have := IH G (rcons C t) nc.+1 no HG.
rewrite all_rcons Et HC => /(_ isT HgG); rewrite size_rcons HcC addnS => /(_ erefl).
case: (foldl _ _ _) => [idle [nc' no']] [K1 K2 K3]; split=> //.
  by apply: (perm_trans K1); rewrite -rcons_cat cat_rcons.
by rewrite K2; lia.
Qed.

Lemma flush_ready_ok p g c : proc_ok p g c ->
  let: (p', (nc, no)) := flush_ready p in
  [/\ proc_ok p' (g + no) (c + nc), same p p', nc + no = size (p_ready p) & p_ready p' = [::]].
Proof.
move=> Hok; have [G [C [H1 H2 H3 H4 H5]]] := ok_idle Hok.
rewrite /flush_ready H1.
have := @flush_ready_loop (p_threads p) (p_ready p) G C 0 0 g c H4 H5.
rewrite !addn0 => /(_ H2 H3); case: (foldl _ _ _) => [idle [nc no]] [K1 K2 K3]; split=> //.
split=> //=; try by case: Hok.
apply: (perm_trans _ (ok_perm Hok)); by rewrite H1 catA perm_cat2r.
Qed.

Lemma assign_ok p g c b opencl : proc_ok p g c -> b \notin keys p -> isSome (p_config p) ->
  (if opencl then 0 < g else 0 < c) ->
  exists p' t, [/\ pool_assign p b opencl = Ok (p', t),
    proc_ok p' (if opencl then g.-1 else g) (if opencl then c else c.-1),
    perm_eq (pend p') (b :: pend p), perm_eq (keys p') (b :: keys p) &
    [/\ p_finished p' = p_finished p, p_shared p' = p_shared p, p_done p' = p_done p,
        p_config p' = p_config p & size (p_threads p') = size (p_threads p)]].
Proof.
move=> Hok Hb Hcfg Hgc; have [G [C [H1 H2 H3 H4 H5]]] := ok_idle Hok.
(* the thread that is taken and the idle threads that remain *)
pose ocl t := t_opencl (nth thread0 (p_threads p) t).
have [t [G' [C' [E1 E2 E3]]]] : exists t G' C',
    [/\ (forall t0 l, p_idle p = t0 :: l ->
          (if opencl then (t0, behead (p_idle p)) else (last t0 (p_idle p), rev (behead (rev (p_idle p)))))
          = (t, G' ++ C')),
        perm_eq (p_idle p) (t :: G' ++ C') &
        [/\ size G' = (if opencl then g.-1 else g), size C' = (if opencl then c else c.-1),
            all ocl G', all (fun t => ~~ ocl t) C' & ocl t = opencl]].
  rewrite H1; case: opencl Hgc => Hgc.
    case: G H1 H2 H4 => [|t G'] H1 H2 /= H4; first by rewrite -H2 in Hgc.
    move/andP: H4 => [Ht H4]; exists t, G', C; split=> // [t0 l [-> _]//|].
    by split=> //; rewrite -H2.
  case/lastP: C H1 H3 H5 => [|C' t] H1 H3 H5; first by rewrite -H3 in Hgc.
  rewrite all_rcons in H5; case/andP: H5 => [Ht H5].
  exists t, G, C'; split.
  - by move=> t0 l E; rewrite -rcons_cat last_rcons rev_rcons /= revK.
  - by rewrite -rcons_cat perm_rcons.
  - by split=> //; [rewrite -H3 size_rcons | apply: negbTE].
case: E3 => F1 F2 F3 F4 F5.
have Hin : t \in p_idle p by rewrite (perm_mem E2) inE eqxx.
have Ht : t < size (p_threads p) by apply: (all_lt Hok); rewrite mem_cat Hin.
have Hto : t \notin owners p.
  have := all_uniq Hok; rewrite cat_uniq => /and3P[_ /hasPn H _].
  by apply/negP => Ho; have := H t; rewrite mem_cat Ho orbT => /(_ isT) /negP; apply.
have Hh := hold_free Hok Ht Hto.
set thr := nth thread0 (p_threads p) t in Hh *.
have [Hq Hph] : t_queue thr = [::] /\ (if t_phase thr is (TWork _ _ | TFlushed _) then false else true).
  by move: Hh; rewrite /holding /todo_of /waiting; case: (t_queue thr); case: (t_phase thr).
have Hnp : t_phase thr = TPop -> False.
  by move=> E; have [_ /(_ E) /(_ Hq)] := ok_thr Hok Ht.
set x := Thread (t_opencl thr) (rcons (t_queue thr) (b, p_config p)) (t_phase thr) (t_shut thr).
have Ewt : waiting thr = [::] by rewrite /waiting Hq; case: (t_phase thr) Hph.
have Ewx : waiting x = [:: (b, p_config p)] by rewrite /waiting /= Hq; case: (t_phase thr) Hph.
have Ehx : holding x = [:: b] by rewrite /holding /todo_of Ewx /=; case: (t_phase thr) Hph.
pose p' := upd (set_busy (set_idle p (G' ++ C')) (om_set block_lt (p_busy p) b t)) t x.
have Hperm := om_set_perm block_total t (ok_busy Hok) Hb.
exists p', t; split.
- rewrite /pool_assign; case Ei: {1}(p_idle p) => [|t0 l]; first by rewrite Ei in Hin.
  have -> : opencl = t_opencl thr by rewrite -F5.
  rewrite -F5 in E1; by rewrite (E1 _ _ Ei) (vgetE thread0 Ht) /= -/thr eqxx.
- split=> /=.
  + rewrite (size_upd x Ht); apply: perm_trans (ok_perm Hok).
    apply: (@perm_trans _ ((G' ++ C') ++ p_ready p ++ [:: t] ++ owners p)).
      by rewrite perm_cat2l perm_cat2l; exact: (perm_map snd Hperm).
    apply: (@perm_trans _ ((G' ++ C') ++ [:: t] ++ p_ready p ++ owners p)).
      by rewrite perm_cat2l perm_catCA.
    by rewrite perm_catCA catA perm_cat2r perm_sym.
  + exact: (om_wf_set block_total _ _ (ok_busy Hok)).
  + move=> t'; rewrite (size_upd x Ht) -[set_nth _ _ _ _]/(p_threads (upd p t x)) nth_upd => Ht'.
    case: eqP => [->|/eqP Hne].
      by split; rewrite ?Ehx ?Ewx //= ?eqxx ?Hcfg //; rewrite ?(perm_mem Hperm) ?inE ?eqxx // => /Hnp.
    have [K1 K2 K3] := ok_thr Hok Ht'; split=> //.
    move: K1; case: (holding _) => [|b' [|b'' l]] //=.
      by rewrite (perm_mem (perm_map snd Hperm)) inE (negbTE Hne).
    by rewrite (perm_mem Hperm) inE => ->; rewrite orbT.
  + have E t' : t_opencl (nth thread0 (set_nth thread0 (p_threads p) t x) t') = ocl t'.
      by rewrite nth_set_nth /=; case: eqP => [->|].
    by exists G', C'; split=> //; [rewrite (eq_all (a2 := ocl))|
       rewrite (eq_all (a2 := fun t => ~~ ocl t))] => // i; rewrite E.
- have := pend_upd x Ht; rewrite -/thr /todo_of Ewt Ewx cats0 => H.
  by apply: (perm_trans H); rewrite cats1 perm_rcons.
- exact: (perm_map fst Hperm).
- by split=> //; exact: (size_upd x Ht).
Qed.
