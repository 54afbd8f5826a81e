(** With at least one thread in some process, and every main thread run and every thread run and woken from time to
    time, the MPI program ends: what makes progress. *)
Set Warnings "-notation-overridden,-ambiguous-paths".
From mathcomp Require Import all_ssreflect zify.
From Verif Require Import Res ResFacts OMap OMapFacts OMapPerm Store StoreSpec StoreProofs FilesProofs
  Pool PoolProofs Standalone StandaloneSpec Account StandaloneProofs StandaloneTheorems Progress
  Mpi MpiSpec MpiNode MpiProofs MpiProgress.

Set Implicit Arguments.
Unset Strict Implicit.
Unset Printing Implicit Defensive.

Section Rounds.
Variable contrib : nat -> block -> store.
Hypothesis Hmap : forall c b, is_map (contrib c b).
Variables (jobs : seq job) (F0 : seq file).
Hypothesis Hjobs : jobs_wf jobs.
Variable K : seq nat.
Hypothesis HK : 0 < sumn K.
Local Notation n := (size K).
Local Notation num s := (size (m_nodes s)).
Local Notation mlive := (mlive contrib jobs F0 K).
Local Notation mmu := (mmu K).
Local Notation lam := (lam K).
Local Notation lmax := (lmax K).
Local Notation settled := (settled K).

Definition aux (s : mstate) : nat :=
  if work s == 0 then lam s + (if settled s then 0 else lmax) else 2 * lmax + 1.
Definition meas (s : mstate) : nat := (2 * lmax + 2) * mmu s + aux s.

Lemma aux_le s : mlive s -> aux s <= 2 * lmax + 1.
Proof.
move=> Hl; have := lam_max Hjobs HK (l_ix Hl); rewrite /aux; case: ifP => _; last by lia.
by case: ifP => _; lia.
Qed.

Lemma meas_less s s' : mlive s' -> mmu s' < mmu s -> meas s' < meas s.
Proof.
move=> /aux_le Ha Hm; rewrite /meas.
have : (2 * lmax + 2) * (mmu s').+1 <= (2 * lmax + 2) * mmu s by rewrite leq_mul2l Hm orbT.
rewrite mulnS; lia.
Qed.

Lemma same_lam s s' : m_pc s' = m_pc s -> (forall i, nsame (get_node s i) (get_node s' i)) ->
  lam s' = lam s /\ settled s' = settled s.
Proof.
move=> E H.
have E1 i : pending s' i = pending s i by rewrite /pending; have [_ ->] := H i.
have E2 : no_ready s' =1 no_ready s by move=> i; rewrite /no_ready; have [_ _ _ [-> _]] := H i.
have E3 : no_finished s' =1 no_finished s by move=> i; rewrite /no_finished; have [_ _ _ [_ ->]] := H i.
rewrite /lam /settled E; case: (m_pc s) => [|b|b|ix [b|k]|ix [b|k]|ix b|ix b|b|b|t b|k|ix k|ix k|ix k r st|ix k r|k|t|t|t|];
  by rewrite ?E1 ?(eq_all E2) ?(eq_all E3) ?E2 ?E3.
Qed.

(** What makes progress when it is run. *)
Definition active (s : mstate) (a : maction) : Prop :=
  match a with
  | AMaster _ => [/\ work s = 0, m_pc s <> QDone & forall ix, recv (m_pc s) = Some ix -> ~~ pending s ix]
  | ANode i => 0 < i < n /\ let w := get_node s i in
      if work s == 0 then recv (m_pc s) = Some i /\ pending s i
      else 0 < inw w + npcw (nsz w) (n_pc w) /\ forall t, n_pc w = NJoin t -> tmeas (thr_at s i t) = 0
  | AStep i t => 0 < tmeas (thr_at s i t) /\ t_phase (thr_at s i t) <> TWait
  | AWake i t => 0 < tmeas (thr_at s i t) /\ t_phase (thr_at s i t) = TWait
  end.
Definition item (a b : maction) : bool :=
  match a with
  | AMaster _ => runs_master b | ANode i => runs_worker i b | AStep i t => runs_thread i t b | AWake i t => wakes_thread i t b
  end.

(** An action makes progress, or keeps what would. *)
Definition stays (s s' : mstate) (b : maction) : Prop :=
  meas s' = meas s /\ forall a, active s a -> active s' a /\ ~~ item a b.

Lemma step_main s save s' : mlive s -> master_step s save = Ok s' ->
  mlive s' /\ (meas s' < meas s \/ stays s s' (AMaster save)).
Proof.
move=> Hl /(main_out Hmap Hjobs HK Hl)[Hl' H]; split=> //.
have keep : num s' = num s -> (forall i, nkeep (get_node s i) (get_node s' i)) -> wmain K s' = wmain K s ->
    0 < work s -> stays s s' (AMaster save).
  move=> En Hk Ew Hw; have Ework := work_keep En Hk.
  have Et i t : thr_at s' i t = thr_at s i t by rewrite /thr_at; have [->] := Hk i.
  split; first by rewrite /meas /aux /mmu Ew Ework eqn0Ngt Hw.
  case=> [sv|i|i t|i t] /=; rewrite ?Et //; first by case=> E; rewrite E in Hw.
  rewrite Ework eqn0Ngt Hw /=; have [_ -> [l El Hr]] := Hk i; rewrite (nkeep_sz (Hk i)) /inw (nkeep_sz (Hk i)) El map_cat sumn_cat.
  by move=> [Hi [H1 H2]]; split=> //; split=> //; split; [lia | move=> t /H2; rewrite Et].
case: H => [H|En Hk Ew Hlam Hset|En Hk Ew Hlam Hset Hwhy|-> Hwhy].
- by left; exact: meas_less.
- case: (posnP (work s)) => Hw; last by right; exact: keep.
  left; rewrite /meas /mmu Ew (work_keep En Hk) ltn_add2l /aux (work_keep En Hk) Hw eqxx.
  by case: (settled s) Hset => [->|_] //; case: (settled s') => //; lia.
- case: (posnP (work s)) => Hw; last by right; exact: keep.
  left; rewrite /meas /mmu Ew (work_keep En Hk) ltn_add2l /aux (work_keep En Hk) Hw eqxx Hset.
  by case: Hwhy => [|/negbTE->]; [rewrite Hw | lia].
right; split=> //; case=> [sv|i|i t|i t] //= [Hw Hd Hr].
by case: Hwhy => [|[ix /Hr/negbTE->]|] //; rewrite Hw.
Qed.

Lemma step_item s b s' : mlive s -> ~~ runs_master b -> mstep contrib s b = Ok s' -> iout K s s' b ->
  mlive s' -> meas s' < meas s \/ stays s s' b.
Proof.
move=> Hl Hnm Hst H Hl'; case: H => [H|Ep Eg En Ew Hs Hid|i m Eb Ep Eg En Ew Et Epc Hoth Hpi Hini Hm Hlam Hset].
- by left; exact: meas_less.
- right; have [E1 E2] := same_lam Ep Hs; split; first by rewrite /meas /mmu /wmain /aux Ep Eg Ew E1 E2.
  have Emeas i t : tmeas (thr_at s' i t) = tmeas (thr_at s i t) by have [_ _ _ _ /(_ t)[]] := Hs i.
  have Ethr i t : 0 < tmeas (thr_at s i t) -> thr_at s' i t = thr_at s i t by have [_ _ _ _ /(_ t)[]] := Hs i.
  case=> [sv|i|i t|i t] /=.
  + rewrite Ew Ep => -[H1 H2 H3]; split=> //.
    by split=> // ix /H3; rewrite /pending; have [_ ->] := Hs ix.
  + move=> [Hi H]; have [Npc Nin Nsz _ _] := Hs i; split.
      split=> //; rewrite Ew Ep /pending Nin Npc /inw Nsz Nin; move: H; case: ifP => // _ [H1 H2]; split=> // t /H2.
      by rewrite Emeas.
    case: (b) Hid => //= j Hid; apply/negP => /eqP Ej; rewrite Ej in Hid.
    move: H; case: (Hid Hi) => [[P1 P2]|P1|[t P1 P2]].
    * by rewrite /pending /inw P1 P2 /=; case: ifP => _ [].
    * have [C1 _] := l_cl Hl Hi; have [|_ P2] := C1; first by rewrite P1.
      by rewrite /pending /inw P1 P2 /=; case: ifP => _ [].
    * case: ifP => _ [H1 H2]; last by move: P2; rewrite (H2 _ P1).
      have [C1 _] := l_cl Hl Hi; have [|_ P3] := C1; first by rewrite P1.
      by move: H2; rewrite /pending P3.
  + move=> [H1 H2]; rewrite Ethr //; split=> //; case: (b) Hid => //= j u Hid.
    by apply/negP => /andP[/eqP Ej /eqP Eu]; apply: H2; rewrite -Ej -Eu; apply: Hid; rewrite Ej Eu.
  + move=> [H1 H2]; rewrite Ethr //; split=> //; case: (b) Hid => //= j u Hid.
    by apply/negP => /andP[/eqP Ej /eqP Eu]; apply: Hid; rewrite Ej Eu.
have Emu : mmu s' = mmu s by rewrite /mmu /wmain Ep Eg Ew.
case: (posnP (work s)) => Hw.
  left; rewrite /meas Emu ltn_add2l /aux Ew Hw eqxx.
  by case: (settled s) Hset => [->|_] //; case: (settled s') => //; lia.
right; split; first by rewrite /meas Emu /aux Ew eqn0Ngt Hw.
case=> [sv|j|j t|j t] /=; rewrite ?Et ?Eb //=.
  by case=> E; rewrite E in Hw.
rewrite Ew eqn0Ngt Hw /= => -[Hj [H1 H2]].
case: (j =P i) => [Ej|Hji].
  by move: H1; rewrite Ej Hpi /inw Hini /=; case: (m) Hm.
rewrite Hoth //; split; last by rewrite eq_sym; apply/eqP.
by split=> //; split=> // t; rewrite Et; exact: H2.
Qed.

Lemma step_meas s b s' : mlive s -> mstep contrib s b = Ok s' -> mlive s' /\ (meas s' < meas s \/ stays s s' b).
Proof.
move=> Hl Hst; case: b Hst => [save|i|i t|i t] Hst; first exact: step_main.
- by have [Hl' H] := node_out Hmap Hjobs HK Hl Hst; split=> //; exact: (step_item Hl _ Hst).
- by have [Hl' H] := thread_out Hmap Hjobs HK Hl (or_introl erefl) Hst; split=> //; exact: (step_item Hl _ Hst).
- by have [Hl' H] := thread_out Hmap Hjobs HK Hl (or_intror erefl) Hst; split=> //; exact: (step_item Hl _ Hst).
Qed.

(** As long as the program has not ended, something makes progress. *)
Lemma pc_done (x : mpc) : {x = QDone} + {x <> QDone}.
Proof. by case: x; (by left) || (by right). Qed.

Definition in_range (a : maction) : Prop :=
  match a with
  | AMaster _ => True | ANode i => 0 < i < n | AStep i t | AWake i t => i < n /\ t < nth 0 K i
  end.

Lemma some_active s : mlive s -> mended s \/ exists2 a, active s a & in_range a.
Proof.
move=> Hl; have Hn := live_num Hl; have [N [past [d [c [P [rest [fut I]]]]]]] := l_good Hl.
have sz i : size (p_threads (n_proc (get_node s i))) = nth 0 K i by exact: (live_nsz i Hl).
case: (posnP (work s)) => [Hw|Hw]; last first.
  right; have [i Hi Hnw] := work_gt0 Hjobs HK Hw; rewrite Hn in Hi.
  case: (posnP (tsum (p_threads (n_proc (get_node s i))))) => [Ht|/tsum_gt0[t Ht Hm]]; last first.
    rewrite sz in Ht; case E: (t_phase (thr_at s i t)) => [||||b m|b|];
      (by exists (AStep i t); split; rewrite ?E) || (by exists (AWake i t) => //; split).
  have K0 := j_nodes I (etrans (congr1 (leq i.+1) Hn) Hi).
  have Hi0 : 0 < i.
    rewrite lt0n; apply/eqP => Ei; have := k_chan K0; rewrite /mode_of Ei /= => -[E1 E2].
    by move: Hnw Ht; rewrite Ei /nw /inw E1 (l_zero Hl) /=; lia.
  have Hin : 0 < i < n by rewrite Hi0.
  exists (ANode i) => //; split=> //=; rewrite eqn0Ngt Hw /=; split; first by move: Hnw; rewrite /nw Ht.
  by move=> t _; rewrite /thr_at; exact: tsum0.
case: (pc_done (m_pc s)) => Hd.
  left; split=> // i; rewrite Hn => Hi; have [C1 C2] := l_cl Hl Hi; rewrite Hd in C2.
  have Hi' : i < num s by rewrite Hn; case/andP: Hi.
  have Hnw := work0 Hjobs HK Hw Hi'.
  have [_ _ Hj] := l_shut Hl (i := i) ltac:(by case/andP: Hi); move: Hj; rewrite /join_at; case: eqP => [Ez|_ Hj]; first by rewrite Ez in Hi.
  case Epc: (n_pc (get_node s i)) => [|t|t|t|t|] //.
  + by move: Hnw; rewrite /nw /inw C2 ?Epc //=; lia.
  + by move: Hnw; rewrite /nw /inw C2 ?Epc //=; lia.
  + by move: Hnw; rewrite /nw Epc /=; lia.
  + have [|Ht _] := Hj t; first by rewrite Epc.
    by move: Hnw; rewrite /nw Epc /= /nsz; lia.
  + have [|Ht _] := Hj t; first by rewrite Epc.
    by move: Hnw; rewrite /nw Epc /= /nsz; lia.
right; case E: (recv (m_pc s)) => [ix|]; last by exists (AMaster false) => //=; split=> //; rewrite E.
case Hp: (pending s ix); last by exists (AMaster false) => //=; split=> //; rewrite E => ? [<-]; rewrite Hp.
have Hix : 0 < ix < n by have := l_ix Hl; case: (m_pc s) E => //= j k [<-].
by exists (ANode ix) => //; split=> //=; rewrite Hw E.
Qed.

Lemma mrun_cons s a acts s' : mrun contrib s (a :: acts) = Ok s' ->
  exists2 s1, mstep contrib s a = Ok s1 & mrun contrib s1 acts = Ok s'.
Proof. by rewrite /mrun /=; case E: (mstep _ _ _) => [s1| | |] //=; exists s1. Qed.

Lemma mrun_live acts s s' : mlive s -> mrun contrib s acts = Ok s' -> mlive s' /\ meas s' <= meas s.
Proof.
elim: acts s => [|a acts IH] s Hl; first by case=> <-.
move=> /mrun_cons[s1 Hst /IH H]; have [Hl1 Hm] := step_meas Hl Hst; have [Hl2 Hm2] := H Hl1; split=> //.
by case: Hm => [|[E _]]; lia.
Qed.

Lemma run_active a acts s s' : mlive s -> active s a -> has (item a) acts -> mrun contrib s acts = Ok s' -> meas s' < meas s.
Proof.
elim: acts s => [|b acts IH] s Hl Ha //= Hit /mrun_cons[s1 Hst Hrun].
have [Hl1 Hm] := step_meas Hl Hst; have [Hl2 Hm2] := mrun_live Hl1 Hrun.
case: Hm => [|[E Hs]]; first by lia.
have [Ha1 Hb] := Hs a Ha; rewrite (negbTE Hb) /= in Hit; rewrite -E; exact: IH Hrun.
Qed.

(** ** Ended programs stay so *)
Lemma ended_step s b s' : mlive s -> mended s -> mstep contrib s b = Ok s' -> mended s'.
Proof.
move=> Hl [Hd He]; have Hn := live_num Hl.
have out i w : i < num s -> n_pc w = n_pc (get_node s i) -> mended (set_node s i w).
  move=> Hi Ew; split=> // j; rewrite size_set // => Hj; rewrite get_set; case: eqP => [Ej|_]; last exact: He.
  by rewrite Ew -Ej; exact: He.
case: b => [save|i|i t|i t] /=.
- by rewrite /master_step Hd => -[<-].
- case: ifP => Hi; last by case=> <-.
  by rewrite /node_step He //= => -[<-]; apply: out => //; case/andP: Hi.
- by case: ifP => Hi; [case: (thread_step _ _ _) => //= p [<-]; exact: out | case=> <-].
- by case: ifP => Hi [<-] //; exact: out.
Qed.

Lemma ended_run acts s s' : mlive s -> mended s -> mrun contrib s acts = Ok s' -> mended s'.
Proof.
elim: acts s => [|a acts IH] s Hl He; first by case=> <-.
by move=> /mrun_cons[s1 Hst]; have [Hl1 _] := step_meas Hl Hst; apply: IH => //; exact: (ended_step Hl He Hst).
Qed.
End Rounds.

(** ** Rounds *)
Section Ends.
Variable contrib : nat -> block -> store.
Hypothesis Hmap : forall c b, is_map (contrib c b).
Variables (jobs : seq job) (F0 : seq file).
Hypothesis Hjobs : jobs_wf jobs.
Variable kinds : seq (seq bool).
Hypothesis Hk : 0 < sumn [seq size k | k <- kinds].
Local Notation K := [seq size k | k <- kinds].

Lemma round_item acts a : mfull_round kinds acts -> in_range K a -> has (item a) acts.
Proof.
case/andP=> H1 /allP H2; case: a => [save|i|i t|i t] //=.
- rewrite size_map => /andP[Hi0 Hi]; have /H2/andP[] : i \in iota 0 (size kinds) by rewrite mem_iota.
  by rewrite eqn0Ngt Hi0.
- rewrite size_map => -[Hi]; rewrite (nth_map [::]) // => Ht.
  have /H2/andP[_ /allP H] : i \in iota 0 (size kinds) by rewrite mem_iota.
  by have /H/andP[] : t \in iota 0 (size (nth [::] kinds i)) by rewrite mem_iota.
- rewrite size_map => -[Hi]; rewrite (nth_map [::]) // => Ht.
  have /H2/andP[_ /allP H] : i \in iota 0 (size kinds) by rewrite mem_iota.
  by have /H/andP[] : t \in iota 0 (size (nth [::] kinds i)) by rewrite mem_iota.
Qed.

Lemma start_live : mlive contrib jobs F0 K (mstart kinds F0 (main_program jobs)).
Proof.
have H0 : 0 < size kinds by case: (kinds) Hk.
have Hget i : i < size kinds -> get_node (mstart kinds F0 (main_program jobs)) i = Node (spark (nth [::] kinds i)) [::] [::] NProbe.
  by move=> Hi; rewrite /get_node /= (nth_map [::]).
split=> //.
- exact: mstart_good.
- by rewrite /= -map_comp; apply: eq_map => k; rewrite /nsz /= size_map.
- by rewrite Hget.
- move=> i; rewrite size_map => Hi; rewrite Hget // /closed_at /join_at Hget //=.
  split=> t; last by case: ifP.
    by rewrite size_map => Ht; rewrite (nth_map false).
  by rewrite size_map => Ht; rewrite (nth_map false).
- by move=> i; rewrite size_map => /andP[_ Hi]; rewrite Hget.
Qed.

Lemma mrun_cat a b s1 s2 : mrun contrib s1 a = Ok s2 -> mrun contrib s1 (a ++ b) = mrun contrib s2 b.
Proof. by rewrite /mrun; elim: a s1 => [|x a IH] s1 /=; [case=> -> | case: (mstep _ _ _) => //= s3; apply: IH]. Qed.

Lemma mrounds_end k s segs : mlive contrib jobs F0 K s -> meas K s <= k -> k < size segs -> all (mfull_round kinds) segs ->
  exists2 s', mrun contrib s (flatten segs) = Ok s' & mended s'.
Proof.
have tot acts s1 : mlive contrib jobs F0 K s1 -> exists2 s2, mrun contrib s1 acts = Ok s2 & mlive contrib jobs F0 K s2.
  move=> Hl; have [s2 H _] := mrun_ok Hmap Hjobs acts (l_good Hl).
  by exists s2 => //; have [] := mrun_live Hmap Hjobs Hk Hl H.
elim: segs k s => [|a segs IH] k s Hl Hm //= Hsz /andP[Ha Hall].
have [He|[x Hx Hr]] := some_active Hjobs Hk Hl.
  have [s' Hs' _] := tot (a ++ flatten segs) s Hl; exists s' => //; exact: (ended_run Hmap Hjobs Hk Hl He Hs').
have [s1 H1 Hl1] := tot a s Hl; have Hlt := run_active Hmap Hjobs Hk Hl Hx (round_item Ha Hr) H1.
by rewrite (mrun_cat _ H1); apply: (IH k.-1) => //; lia.
Qed.

Lemma mprogram_ends acts s : mrun contrib (mstart kinds F0 (main_program jobs)) acts = Ok s ->
  exists k, forall rounds, k <= size rounds -> all (mfull_round kinds) rounds ->
    exists2 s', mrun contrib s (flatten rounds) = Ok s' & mended s'.
Proof.
move=> Hrun; have [Hl _] := mrun_live Hmap Hjobs Hk start_live Hrun.
by exists (meas K s).+1 => segs; exact: (mrounds_end Hl).
Qed.
End Ends.
