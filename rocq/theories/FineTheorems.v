(** Executions with critical sections taken apart: they do not fail, they do what executions of Standalone.v do, and
    all critical sections can be completed. *)
Set Warnings "-notation-overridden,-ambiguous-paths".
From mathcomp Require Import all_ssreflect zify.
From Verif Require Import Res ResFacts OMap Store StoreSpec Pool Standalone StandaloneSpec StandaloneTheorems
  Fine FineSpec FineProofs.

Set Implicit Arguments.
Unset Strict Implicit.
Unset Printing Implicit Defensive.

Section Runs.
Variable contrib : nat -> block -> store.
Notation R := (R contrib).

Lemma R_split f c : R f c -> exists p, f = FState (with_proc c p) (f_pool f) (f_static f) (f_data f) (f_main f) (f_thr f).
Proof. by move=> HR; exists (f_proc f); rewrite -(R_st HR); case: f {HR}. Qed.

Lemma wake_sim f c t : R f c -> R (fset_proc f (wake (f_proc f) t)) (with_proc c (wake (s_proc c) t)).
Proof.
move=> HR; have [p Ef] := R_split HR; rewrite Ef in HR *; clear Ef.
rewrite /wake /fset_proc /fset_st /f_proc /=.
have [Ek Eph] := R_core HR t; rewrite /f_proc /= in Ek Eph.
rewrite /notify -/(thr_at p t) -/(thr_at (s_proc c) t) -Eph.
case Ew: (t_phase (thr_at p t)); try by move: (HR); rewrite with_proc_id.
have Em : mic (FState (with_proc c p) (f_pool f) (f_static f) (f_data f) (f_main f) (f_thr f)) t = MNone.
  by apply: tok_wait; rewrite -Ew Eph; exact: (R_tok HR t).
have Ht : t < size (p_threads (s_proc c)).
  rewrite ltnNge; apply/negP => H; move: Ew; rewrite Eph /thr_at nth_default //.
rewrite /mic /= in Em.
have Hms : f_thr f = set_nth MNone (f_thr f) t MNone.
  by rewrite -{2}Em set_id // (R_msz HR : size (f_thr f) = _).
rewrite Hms.
apply: (thr_next HR Ht (x := Thread (t_opencl (thr_at p t)) _ _ _) (y := Thread (t_opencl (thr_at (s_proc c) t)) _ _ _)) => //=.
- exact: (R_done HR).
- by rewrite /tcore /= Ek.
- by left; rewrite Em.
- by left; rewrite Em.
- by left; rewrite Em.
Qed.

Lemma step_sim f c a c1 : R f c -> step contrib c a = Ok c1 ->
  exists2 f', fstep contrib f a = Ok f' & R f' c \/ exists2 c', step contrib c a = Ok c' & R f' c'.
Proof.
move=> HR; have [p Ef] := R_split HR; rewrite Ef in HR *; clear Ef.
case: a => [save|t|t] H1.
- exact: (main_sim HR H1).
- case: (ltnP t (size (p_threads (s_proc c)))) => Ht; first exact: (thread_sim HR Ht H1).
  eexists; last by left; exact: HR.
  by rewrite /= /fthread /f_proc /= (R_size HR) /= ltnNge Ht.
- eexists; first reflexivity; right; eexists; first reflexivity.
  exact: wake_sim.
Qed.

Lemma R_start kinds fs cs : R (fstart kinds fs cs) (start kinds fs cs).
Proof.
have Hm t : nth MNone (nseq (size kinds) MNone) t = MNone by rewrite nth_nseq; case: ifP.
have Hd t : nth None (nseq (size kinds) (None : option actor)) t = None by rewrite nth_nseq; case: ifP.
split=> //=; rewrite ?size_nseq ?size_map //.
- by move=> t; rewrite /mic /= Hm.
- by case=> [t|//]; rewrite /= /mic /= Hm.
- by case=> [t|//]; rewrite /= /mic /= Hm.
- by move=> t [t'|]; rewrite Hd //= /mic /= Hm andbF.
- by move=> t; rewrite /relT /= Hd.
Qed.

Section Start.
Hypothesis Hmap : forall c b, is_map (contrib c b).
Variables (jobs : seq job) (fs : seq file) (kinds : seq bool).
Hypothesis Hwf : jobs_wf jobs.
Notation f0 := (fstart kinds fs (main_program jobs)).
Notation s0 := (start kinds fs (main_program jobs)).

Lemma run_sim acts : exists f m c,
  [/\ frun contrib f0 acts = Ok f, size m = size acts, run contrib s0 (mask m acts) = Ok c & R f c].
Proof.
elim/last_ind: acts => [|acts a [f [m [c [H1 H2 H3 H4]]]]].
  by exists f0, [::], s0; split=> //; exact: R_start.
have [c1 [Hc1 _ _]] := threads_ok Hmap fs Hwf kinds (mask m acts ++ [:: a]).
move: Hc1; rewrite /run foldM_cat -/(run _ _ _) H3 /=; case Ea: (step contrib c a) => [c2| | |] //= _.
have [f' Hf' [HR'|[c' Hc' HR']]] := step_sim H4 Ea.
- exists f', (rcons m false), c; split=> //.
  + by rewrite /frun -cats1 foldM_cat -/(frun _ _ _) H1 /= Hf'.
  + by rewrite !size_rcons H2.
  + by rewrite mask_rcons // cats0.
- exists f', (rcons m true), c'; split=> //.
  + by rewrite /frun -cats1 foldM_cat -/(frun _ _ _) H1 /= Hf'.
  + by rewrite !size_rcons H2.
  + by rewrite mask_rcons //= /run foldM_cat -/(run _ _ _) H3 /= Hc'.
Qed.

Lemma proc_eq p p' : p_threads p = p_threads p' -> poolr p = poolr p' -> p_shared p = p_shared p' ->
  p_config p = p_config p' -> p_done p = p_done p' -> p = p'.
Proof. by case: p => ? ? ? ? ? ? ? ?; case: p' => ? ? ? ? ? ? ? ? /= -> [-> -> -> ->] -> -> ->. Qed.

Lemma R_free f c : R f c -> free f -> f_st f = c.
Proof.
move=> HR [HP HS HD]; rewrite (R_st HR) -[RHS]with_proc_id; congr with_proc.
have := R_P HR; have := R_S HR; rewrite /relP /relS HP HS => ES EP.
apply: proc_eq EP ES (R_conf HR) (R_done HR).
apply: (@eq_from_nth _ thread0); first exact: (R_size HR).
move=> t _; have := R_T HR t; have := R_core HR t; rewrite /relT HD -/(thr_at _ t) -/(thr_at _ t).
by case: (thr_at (f_proc f) t) => a b d e; case: (thr_at (s_proc c) t) => a' b' d' e' [/= -> ->] [-> ->].
Qed.

(** ** Completing critical sections *)
Definition tmu (f : fstate) (t : nat) : nat :=
  match mic f t with
  | MNone => 0
  | MTest0 => 3 | MTest1 _ => 2 | MTest2 _ _ => 1
  | MPop0 => 3 | MPop1 _ => 2 | MPop2 _ => 1
  | MFlush0 => (size (work_store contrib (t_phase (thr_at (f_proc f) t)))).+2
  | MFlush1 i => (size (work_store contrib (t_phase (thr_at (f_proc f) t))) - i).+1
  | MFin0 => 5 | MFin1 _ => 4 | MFin2 => 3 | MFin3 => 2 | MFin4 => 1
  end.

Lemma thread_down f t f' : t < size (p_threads (f_proc f)) -> mic f t <> MNone -> fthread contrib f t = Ok f' ->
  [/\ tmu f' t < tmu f t, f_main f' = f_main f, forall t', t' != t -> mic f' t' = mic f t' &
      size (p_threads (f_proc f')) = size (p_threads (f_proc f))].
Proof.
move=> Ht Hm; rewrite /fthread Ht -/(mic f t) -/(thr_at _ t).
have Hset m t' : t' != t -> nth MNone (set_nth MNone (f_thr f) t m) t' = mic f t'.
  by move=> Hne; rewrite nth_set_nth /= (negbTE Hne).
have Hsz x : size (set_nth thread0 (p_threads (f_proc f)) t x) = size (p_threads (f_proc f)).
  by rewrite size_set_nth; apply/maxn_idPr.
rewrite /tmu /owning.
case E: (mic f t) Hm => [||sh|sh e||z|[b d]||i||t'|||] // _.
- case: ifP => // _ [<-]; split=> //=; [by rewrite /mic /= nth_set_nth /= eqxx | exact: Hset].
- case: ifP => // _ [<-]; split=> //=; [by rewrite /mic /= nth_set_nth /= eqxx | exact: Hset].
- case: ifP => // _ [<-]; split=> //=; [by rewrite /mic /= nth_set_nth /= eqxx | exact: Hset].
- case: ifP => // _; case: (t_queue _) => // z q [<-]; split=> //=; [by rewrite /mic /= nth_set_nth /= eqxx | exact: Hset].
- case: ifP => // _; case: (t_queue _) => // z' q [<-]; split=> //=;
    [by rewrite /mic /= nth_set_nth /= eqxx | exact: Hset].
- case: ifP => // _ [<-]; split=> //=; [by rewrite /mic /= nth_set_nth /= eqxx | exact: Hset].
- case: ifP => // _ [<-]; split=> //=; [ | exact: Hset].
  by rewrite /mic /= nth_set_nth /= eqxx /f_proc /= -/(thr_at _ t) subn0.
- case: ifP => // _; case: ltnP => Hi.
    move=> [<-]; split=> //=; [ | exact: Hset].
    rewrite /mic /= nth_set_nth /= eqxx /f_proc /= -/(thr_at _ t); move: Hi.
    by rewrite -/(f_proc f) ltnS -subn_gt0 => Hi; rewrite subnS; case: (_ - i) Hi.
  case: (t_phase _) => // b d [<-]; split=> //=; [by rewrite /mic /= nth_set_nth /= eqxx | exact: Hset].
- case: ifP => // _; case: (om_find _ _ _) => // t' [<-]; split=> //=;
    [by rewrite /mic /= nth_set_nth /= eqxx | exact: Hset].
- case: ifP => // _ [<-]; split=> //=; [by rewrite /mic /= nth_set_nth /= eqxx | exact: Hset].
- case: ifP => // _ [<-]; split=> //=; [by rewrite /mic /= nth_set_nth /= eqxx | exact: Hset].
- case: ifP => // _ [<-]; split=> //=; [by rewrite /mic /= nth_set_nth /= eqxx | exact: Hset].
- case: ifP => // _ [<-]; split=> //=; [by rewrite /mic /= nth_set_nth /= eqxx | exact: Hset].
Qed.

Definition mmu (f : fstate) : nat :=
  match f_main f with
  | NNone => 0
  | NFin0 => 3 | NFin1 _ => 2 | NFin2 _ => 1
  | NReady i _ _ => (size (p_ready (f_proc f)) - i).+2 | NReadyEnd _ _ => 1
  | NAssign0 => 7 | NAssign1 _ => 6 | NAssign2 _ => 5 | NAssign3 _ => 4 | NAssign4 _ => 3 | NAssign5 => 2 | NAssign6 => 1
  | NGlob0 => 5 | NGlob1 _ => 4 | NGlob2 _ => 3 | NGlob3 _ _ => 2 | NGlob4 _ _ => 1
  | NShut0 => 2 | NShut1 => 1
  end.

Lemma main_down f f' : f_main f <> NNone ->
  (forall t, nth None (f_data f) t = None \/ nth None (f_data f) t = Some None) ->
  fmain f false = Ok f' -> mmu f' < mmu f /\ f_thr f' = f_thr f.
Proof.
move=> Hn HD; rewrite /fmain /mmu /owning.
case E: (f_main f) Hn => [||bs|bs|i x o|x o||t|t|t|t||||r|r|r st|r st||] // _.
- by case: ifP => // _ [<-].
- by case: ifP => // _ [<-].
- case: ifP => // _ H; by have [s Hs [<-]] := bind_Ok_inv H.
- case: ifP => // _; case: ltnP => Hi; last by move=> [<-].
  case: ifP => _ [<-] /=; split=> //; rewrite /f_proc /= !ltnS -subn_gt0 in Hi *; rewrite subnS; by case: (_ - i) Hi.
- by case: ifP => // _ [<-].
- by case: ifP => // _; case: (p_idle _) => // t0 l; case: ifP => _ [<-].
- move=> H; have [thr _] := bind_Ok_inv H; case: ifP => // _; by case: ifP => // _ [<-].
- by rewrite /acquire; case: (HD t) => -> // [<-].
- by case: ifP => // _ [<-].
- by case: ifP => // _ [<-].
- by move=> H; have [s _ [<-]] := bind_Ok_inv H.
- by case: ifP => // _ [<-].
- by case: ifP => // _ [<-].
- by case: ifP => // _ [<-].
- by case: ifP => // _ [<-].
- by case: ifP => // _ [<-].
- by case: ifP => // _ [<-].
- by case: (s_pc _) => // t; case: ifP => // _ [<-].
- by case: (s_pc _) => // t; case: ifP => // _ [<-].
Qed.

Lemma frun_more acts f a : frun contrib f0 acts = Ok f -> exists f', fstep contrib f a = Ok f' /\
  frun contrib f0 (rcons acts a) = Ok f'.
Proof.
move=> H; have [f' [_ [_ [H1 _ _ _]]]] := run_sim (rcons acts a).
by move: (H1); rewrite /frun -cats1 foldM_cat -/(frun _ _ _) H /=; case: (fstep _ _ _) => //= f1 [->]; exists f'.
Qed.

Lemma clear_thread k acts f t : frun contrib f0 acts = Ok f -> t < size (p_threads (f_proc f)) -> tmu f t <= k ->
  exists more f', [/\ frun contrib f0 (acts ++ more) = Ok f', mic f' t = MNone, f_main f' = f_main f,
    forall t', t' != t -> mic f' t' = mic f t' & size (p_threads (f_proc f')) = size (p_threads (f_proc f))].
Proof.
elim: k acts f => [|k IH] acts f Hrun Ht Hk.
  exists [::], f; rewrite cats0; split=> //; move: Hk; rewrite /tmu; by case: (mic f t).
case E: (if mic f t is MNone then true else false).
  by exists [::], f; rewrite cats0; split=> //; move: E; case: (mic f t).
have Hm : mic f t <> MNone by move=> Em; rewrite Em in E.
have [f1 [Hstep Hrun1]] := frun_more (Step t) Hrun.
have [D1 D2 D3 D4] := thread_down Ht Hm Hstep.
have [||more [f' [H1 H2 H3 H4 H5]]] := IH _ _ Hrun1; [by rewrite D4 | by rewrite -ltnS (leq_trans D1) |].
exists (Step t :: more), f'; rewrite -cat_rcons; split=> //; [by rewrite H3 | | by rewrite H5].
by move=> t' Hne; rewrite H4 // D3.
Qed.

Lemma clear_threads l acts f : frun contrib f0 acts = Ok f -> all (fun t => t < size (p_threads (f_proc f))) l ->
  exists more f', [/\ frun contrib f0 (acts ++ more) = Ok f', f_main f' = f_main f &
    forall t, mic f' t = if t \in l then MNone else mic f t].
Proof.
elim: l acts f => [|t l IH] acts f Hrun; first by exists [::], f; rewrite cats0.
move=> /= /andP[Ht Hl]; have [more1 [f1 [H1 H2 H3 H4 H5]]] := clear_thread Hrun Ht (leqnn _).
have [|more2 [f2 [G1 G2 G3]]] := IH _ _ H1; first by rewrite H5.
exists (more1 ++ more2), f2; rewrite catA; split=> //; first by rewrite G2.
move=> t'; rewrite G3 inE; case: eqP => [->|/eqP Hne] /=; first by rewrite H2; case: ifP.
by rewrite H4.
Qed.

Lemma clear_main k acts f : frun contrib f0 acts = Ok f -> (forall t, mic f t = MNone) -> mmu f <= k ->
  exists more f', [/\ frun contrib f0 (acts ++ more) = Ok f', f_main f' = NNone & forall t, mic f' t = MNone].
Proof.
elim: k acts f => [|k IH] acts f Hrun Hm Hk.
  exists [::], f; rewrite cats0; split=> //; move: Hk; rewrite /mmu; by case: (f_main f).
case E: (if f_main f is NNone then true else false).
  by exists [::], f; rewrite cats0; split=> //; move: E; case: (f_main f).
have Hn : f_main f <> NNone by move=> Em; rewrite Em in E.
have [f1 [Hstep Hrun1]] := frun_more (Main false) Hrun.
have HD t : nth None (f_data f) t = None \/ nth None (f_data f) t = Some None.
  have [f' [m [c [H1 _ _ HR]]]] := run_sim acts; move: H1; rewrite Hrun => -[Ef]; rewrite -Ef in HR.
  case Eo: (nth None (f_data f) t) => [[t'|]|]; [ | by right | by left].
  by have := R_lT HR t (Some t'); rewrite Eo eqxx /= Hm andbF.
have [D1 D2] := main_down Hn HD Hstep.
have [||more [f' [H1 H2 H3]]] := IH _ _ Hrun1; [by move=> t; rewrite /mic D2; exact: Hm | by rewrite -ltnS (leq_trans D1) |].
by exists (Main false :: more), f'; rewrite -cat_rcons.
Qed.

Lemma can_free acts f : frun contrib f0 acts = Ok f -> exists more f',
  frun contrib f more = Ok f' /\ free f'.
Proof.
move=> Hrun; have Hall : all (fun t => t < size (p_threads (f_proc f))) (iota 0 (size (p_threads (f_proc f)))).
  by apply/allP => t; rewrite mem_iota.
have [more1 [f1 [H1 H2 H3]]] := clear_threads Hrun Hall.
have Hm1 t : mic f1 t = MNone.
  rewrite H3 mem_iota /= add0n; case: ltnP => // Ht.
  have [f' [m [c [G1 _ _ HR]]]] := run_sim acts; move: G1; rewrite Hrun => -[Ef]; rewrite -Ef in HR.
  by rewrite /mic nth_default // (R_msz HR) -(R_size HR).
have [more2 [f2 [G1 G2 G3]]] := clear_main H1 Hm1 (leqnn _).
exists (more1 ++ more2), f2; split.
  by move: G1; rewrite -catA /frun foldM_cat -/(frun _ _ _) Hrun.
have [f' [m [c [K1 _ _ HR]]]] := run_sim ((acts ++ more1) ++ more2); move: K1; rewrite G1 => -[Ef]; rewrite -Ef in HR.
split.
- case Eo: (f_pool f2) => [a|//]; have := R_lP HR a; rewrite Eo eqxx; case: a {Eo} => [t|] /=; by rewrite ?G3 ?G2.
- case Eo: (f_static f2) => [a|//]; have := R_lS HR a; rewrite Eo eqxx; case: a {Eo} => [t|] /=; by rewrite ?G3 ?G2.
- move=> t; case Eo: (nth None (f_data f2) t) => [a|//]; have := R_lT HR t a; rewrite Eo eqxx.
  by case: a {Eo} => [t'|] /=; rewrite ?G3 ?G2 ?andbF.
Qed.

Lemma never_fails acts : exists f, frun contrib f0 acts = Ok f.
Proof. by have [f [m [c [H _ _ _]]]] := run_sim acts; exists f. Qed.

Lemma refines acts f : frun contrib f0 acts = Ok f -> exists m s,
  [/\ run contrib s0 (mask m acts) = Ok s, files (f_st f) = files s,
      handed (f_st f) = handed s /\ reported (f_st f) = reported s,
      s_pc (f_st f) = s_pc s /\ prog (f_st f) = prog s & free f -> f_st f = s].
Proof.
move=> Hrun; have [f' [m [c [H1 _ H3 HR]]]] := run_sim acts.
move: H1; rewrite Hrun => -[Ef]; rewrite -Ef in HR; exists m, c.
by split=> //; [rewrite (R_st HR) | rewrite (R_st HR) | rewrite (R_st HR) | exact: R_free].
Qed.
End Start.

Lemma fhistory_ok jobs fs : (forall c b, is_map (contrib c b)) -> jobs_wf jobs ->
  fhistory contrib jobs fs -> history contrib jobs fs.
Proof.
move=> Hmap Hwf; elim=> [|fs' kinds acts f _ IH Hrun]; first exact: HistStart.
by have [m [s [H1 -> _ _ _]]] := refines Hmap Hwf Hrun; exact: HistRun H1.
Qed.

Lemma fine_restart jobs fs kinds acts f j : (forall c b, is_map (contrib c b)) -> jobs_wf jobs ->
  fhistory contrib jobs fs -> frun contrib (fstart kinds fs (main_program jobs)) acts = Ok f ->
  s_pc (f_st f) = PDone -> j \in jobs ->
  perm_eq (recorded (files (f_st f)) j.1.1) j.2 /\ add_up contrib (files (f_st f)) j.1.1 j.1.2 j.2.
Proof.
move=> Hmap Hwf Hh Hrun Hpc Hj; have [m [s [H1 -> _ [Epc _] _]]] := refines Hmap Hwf Hrun.
by apply: (restart_ok Hmap Hwf (fhistory_ok Hmap Hwf Hh) H1) => //; rewrite -Epc.
Qed.
End Runs.
