(** Lost notifications are the only reason for which the MPI program does not end. *)
Set Warnings "-notation-overridden,-ambiguous-paths".
From mathcomp Require Import all_ssreflect zify.
From Verif Require Import Res ResFacts OMap OMapFacts OMapPerm Store StoreSpec StoreProofs FilesProofs
  Pool PoolProofs Standalone StandaloneSpec Account StandaloneProofs StandaloneTheorems Progress Lost
  Mpi MpiSpec MpiNode MpiProofs MpiProgress MpiRounds.

Set Implicit Arguments.
Unset Strict Implicit.
Unset Printing Implicit Defensive.

(** ** The threads of one process *)
(** What one step does to the threads of a process, with the thread that the main thread of the process is closing
    down and the one that it is about to notify, before and after, and the thread that wakes up spuriously. *)
Variant pch (p p' : proc) (c : bool) (j j' m m' wk : option nat) : Prop :=
  | PKeep of p_threads p' = p_threads p & j' = j & m' = m
  | PJoined t of p_threads p' = p_threads p & j = Some t & t_phase (nth thread0 (p_threads p) t) = TExit & m = None & m' = None
  | PThread t x of repl p p' t x & t_shut x = t_shut (nth thread0 (p_threads p) t) &
      (t_phase (nth thread0 (p_threads p) t) = TExit -> t_phase x = TExit) &
      (t_phase (nth thread0 (p_threads p) t) = TWait -> x = nth thread0 (p_threads p) t \/ wk = Some t) & j' = j & m' = m
  | PAssign t x of repl p p' t x & t \in p_idle p & t_shut x = t_shut (nth thread0 (p_threads p) t) &
      t_phase x = t_phase (nth thread0 (p_threads p) t) & j = None & m' = Some t
  | PNotified t of m = Some t & p' = notify p t & j' = j & m' = None
  | PShutting t of t < size (p_threads p) & p' = set_shutdown p t & c & j = None & j' = Some t & m' = Some t.

Definition pclosed (p : proc) (j : option nat) : Prop :=
  forall u, u < size (p_threads p) -> t_shut (nth thread0 (p_threads p) u) ->
    t_phase (nth thread0 (p_threads p) u) = TExit \/ j = Some u.
Definition psleep (p : proc) (m : option nat) (t : nat) : Prop :=
  let thr := nth thread0 (p_threads p) t in
  [/\ t < size (p_threads p), t_phase thr = TWait, t_queue thr <> [::] \/ t_shut thr = true & m <> Some t].

Lemma pclosed_step p p' c j j' m m' wk : pch p p' c j j' m m' wk -> pclosed p j -> pclosed p' j'.
Proof.
case=> [E -> _|t E Ej Ex _ _|t x R Hs Hp _ -> _|t x R _ Hs Hp Ej _|t _ -> -> _|t Ht -> _ Ej -> _] C u.
- by rewrite E; exact: C.
- rewrite E => Hu /(C u Hu)[|]; first by left.
  by rewrite Ej => -[<-]; left.
- rewrite (repl_size R) (repl_nth u R) => Hu; case: eqP => [->|_]; last exact: C.
  by rewrite Hs; case: R => Ht _ /(C t Ht)[/Hp|]; [left | right].
- rewrite (repl_size R) (repl_nth u R) => Hu; case: eqP => [->|_].
    by rewrite Hs Hp; case: R => Ht _ /(C t Ht)[|]; [left | rewrite Ej].
  by move=> /(C u Hu)[|]; [left | rewrite Ej].
- case: (ltnP t (size (p_threads p))) => Ht; last by rewrite notify_out -?leqNgt //; exact: C.
  have [x [R Hs Hp _ _]] := notify_repl Ht; rewrite (repl_size R) => Hu.
  case: (u =P t) => [->|Hu']; last by rewrite (repl_nth u R); move/eqP/negbTE: Hu' => ->; exact: C.
  rewrite {1}(repl_nth t R) eqxx Hs => /(C t Ht)[Ex|]; last by right.
  by left; rewrite notify_exit.
have [x [R Hs Hp]] := shutdown_repl Ht; rewrite (repl_size R) (repl_nth u R) => Hu.
case: eqP => [->|_]; first by right.
by move=> /(C u Hu)[|]; [left | rewrite Ej].
Qed.

Lemma psleep_cases p g n (c : bool) j m t : proc_ok p g n -> (c -> p_busy p = [::]) -> pclosed p j -> psleep p m t ->
  [/\ t_queue (nth thread0 (p_threads p) t) <> [::], t \notin p_idle p & ~~ c] \/ j = Some t.
Proof.
move=> Hok Hc C [Ht Hw [Hq|Hq] Hm]; last by right; have [|] := C t Ht Hq; rewrite ?Hw.
left; have [H1 _ _] := ok_thr Hok Ht.
have Ho : t \in owners p.
  move: H1; rewrite /holding /todo_of /waiting Hw /= !cats0; case: (t_queue _) Hq => [|bc [|bc' q]] //= _.
  by move=> H; exact: (map_f snd H).
split=> //; last by apply/negP => /Hc E; move: Ho; rewrite /owners E.
have := all_uniq Hok; rewrite cat_uniq => /and3P[_ /hasPn/(_ t) H _].
by apply: H; rewrite mem_cat Ho orbT.
Qed.

Lemma psleep_step p p' g n (c : bool) j j' m m' wk t : proc_ok p g n -> (c -> p_busy p = [::]) -> pclosed p j -> psleep p m t ->
  pch p p' c j j' m m' wk -> wk <> Some t -> psleep p' m' t.
Proof.
move=> Hok Hc C Hs H Hwk; have Hcs := psleep_cases Hok Hc C Hs; have [Ht Hw Hq Hm] := Hs.
have other u x : repl p p' u x -> u <> t -> m' <> Some t -> psleep p' m' t.
  move=> R Nu Hm'; have := repl_nth t R; case: eqP => [Eu|_ En]; first by case: Nu.
  by split; rewrite ?(repl_size R) ?En.
case: H => [E _ ->|u E Ej Ex _ ->|u x R Hsx Hp Hx _ Em|u x R Hi Hsx Hp Ej Em|u Em -> _ ->|u Hu Ep Hcl Ej _ Em].
- by split; rewrite ?E.
- by split; rewrite ?E.
- case: (u =P t) => [Eu|Nu]; last by apply: (other _ _ R Nu); rewrite Em.
  rewrite Eu in R Hx; case: (Hx Hw) => [Ex|] //; rewrite Em.
  by split; rewrite ?(repl_size R) ?(repl_nth t R) ?eqxx ?Ex.
- case: Hcs => [[_ Hid _]|]; last by rewrite Ej.
  have Nu : u <> t by move=> Eu; rewrite Eu in Hi; rewrite Hi in Hid.
  by apply: (other _ _ R Nu); rewrite Em => -[Eu]; apply: Nu.
- case: (ltnP u (size (p_threads p))) => Hu; last by rewrite notify_out -?leqNgt.
  have [x [R _ _ _ _]] := notify_repl Hu; have Nu : u <> t by move=> Eu; apply: Hm; rewrite Em Eu.
  have := repl_nth t R; case: eqP => [Eu|_ En]; first by case: Nu.
  by split; rewrite ?(repl_size R) ?En.
case: Hcs => [[_ _]|]; by [rewrite Hcl | rewrite Ej].
Qed.

Section Lost.
Variable contrib : nat -> block -> store.
Hypothesis Hmap : forall c b, is_map (contrib c b).
Variables (jobs : seq job) (F0 : seq file).
Hypothesis Hjobs : jobs_wf jobs.
Variable K : seq nat.
Hypothesis HK : 0 < sumn K.
Local Notation n := (size K).
Local Notation num s := (size (m_nodes s)).
Local Notation mlive := (mlive contrib jobs F0 K).
Local Notation meas := (meas K).

Definition nproc (s : mstate) (i : nat) : proc := n_proc (get_node s i).
Definition woken (a : maction) (i : nat) : option nat := if a is AWake j t then if j == i then Some t else None else None.

(** Nothing that the main thread of a process does concerns the threads of another one. *)
Lemma master_rest s save s' i : master_step s save = Ok s' -> 0 < i < num s ->
  p_threads (nproc s' i) = p_threads (nproc s i) /\ n_pc (get_node s' i) = n_pc (get_node s i).
Proof.
move=> Hst /andP[Hi0 Hi]; have Hz : (i == 0) = false by rewrite eqn0Ngt Hi0.
have same : m_nodes s' = m_nodes s -> p_threads (nproc s' i) = p_threads (nproc s i) /\ n_pc (get_node s' i) = n_pc (get_node s i).
  by rewrite /nproc /get_node => ->.
have zero w : m_nodes s' = set_nth node0 (m_nodes s) 0 w ->
    p_threads (nproc s' i) = p_threads (nproc s i) /\ n_pc (get_node s' i) = n_pc (get_node s i).
  by rewrite /nproc /get_node => ->; rewrite nth_set_nth /= Hz.
have one ix w : m_nodes s' = set_nth node0 (m_nodes s) ix w -> n_proc w = n_proc (get_node s ix) -> n_pc w = n_pc (get_node s ix) ->
    p_threads (nproc s' i) = p_threads (nproc s i) /\ n_pc (get_node s' i) = n_pc (get_node s i).
  move=> E E1 E2; have Eg : get_node s' i = if i == ix then w else get_node s i by rewrite /get_node E nth_set_nth.
  by rewrite /nproc Eg; case: eqP => [->|_] //; rewrite E1 E2.
have all w m : m_nodes s' = w :: [seq post m x | x <- behead (m_nodes s)] ->
    p_threads (nproc s' i) = p_threads (nproc s i) /\ n_pc (get_node s' i) = n_pc (get_node s i).
  move=> E; have H0 : 0 < num s by lia.
  by have [_ /(_ i Hi) H _] := post_all Hjobs HK H0 E; rewrite /nproc H Hz.
move: Hst; rewrite /master_step.
case Epc: (m_pc s) => [|b|b|ix k|ix k|ix b|ix b|b|b|t b|k|ix k|ix k|ix k r st|ix k r|k|t|t|t|].
- by case: (m_prog s) => [|[d' c'|b|] cs] [E]; apply: same; rewrite -E.
- by case=> E; apply: same; rewrite -E.
- by case: (m_store s) => [[d' r]|] // -[E]; apply: same; rewrite -E.
- case: ifP => _.
    rewrite /flush_finished; case E: (foldM _ _ _) => [s1| | |] //= -[E']; have [F1 _ _] := fold_fields E.
    by apply: zero; rewrite -E' /= F1.
  by case: ifP => _ [E]; [apply: one; first by rewrite -E | apply: same; rewrite -E].
- case: (n_out _) => [|[nc no|r st|bs] out].
  1,2,3: by case=> <-.
  case E: (foldM _ _ _) => [s1| | |] //= -[E']; have [F1 _ _] := fold_fields E.
  by apply: one; first by rewrite -E' /= F1.
- case: ifP => _.
    by case: (flush_ready _) => [p [nc no]] [E]; apply: zero; rewrite -E.
  by case: ifP => _ [E]; [apply: one; first by rewrite -E | apply: same; rewrite -E].
- case: (n_out _) => [|[nc no|r st|bs] out].
  1,3,4: by case=> <-.
  by case=> E; apply: one; first by rewrite -E.
- by case=> E; apply: same; rewrite -E.
- have give (o : bool) ix s1 : m_nodes s1 = m_nodes s ->
      (let s := mset_handed s1 (rcons (m_handed s1) (ix, (m_dir s1, b))) in
       let w := get_node s ix in
       if ix == 0 then
         pt <- pool_assign (n_proc w) b o ;; Ok (mgoto (set_node s 0 (nset_proc w pt.1)) (QNotify pt.2 b))
       else Ok (mgoto (minsert ix b (set_node s ix (post (MAssign o b) w))) QNext)) = Ok s' ->
      p_threads (nproc s' i) = p_threads (nproc s i) /\ n_pc (get_node s' i) = n_pc (get_node s i).
    move=> En; cbv zeta; have Eg j : get_node (mset_handed s1 (rcons (m_handed s1) (ix, (m_dir s1, b)))) j = get_node s j.
      by rewrite /get_node /= En.
    rewrite Eg; case: eqP => [Ei|Ei].
      by case E: (pool_assign _ _ _) => [[p t]| | |] //= -[E']; apply: zero; rewrite -E' /= En.
    by case=> E'; apply: one; first by rewrite -E' /= En.
  by case Eo: (m_ocl s) => [|ix ocl] /=; [case Ec: (m_cpu s) => [|ix cpu] //= |]; exact: give.
- by case=> E; apply: zero; rewrite -E.
- by case=> E; apply: same; rewrite -E.
- case: ifP => _.
    case: (m_store s) => [ds|]; last by case=> E; apply: same; rewrite -E.
    by case: (flush_global _) => [p [r st]] [E]; apply: zero; rewrite -E.
  by case: ifP => _ [E]; [apply: one; first by rewrite -E | apply: same; rewrite -E].
- case: (n_out _) => [|[nc no|r st|bs] out].
  1,2,4: by case=> <-.
  by case=> E; apply: one; first by rewrite -E.
- by case=> E; apply: same; rewrite -E.
- by case=> E; apply: same; rewrite -E.
- by case: k Epc => [b|d' c'|] Epc [E]; [apply: same | apply: all | apply: all]; rewrite -E.
- by case: ifP => _ [E]; [apply: zero | apply: same]; rewrite -E.
- by case=> E; apply: zero; rewrite -E.
- by case=> E; apply: same; rewrite -E; case: (t_phase _).
- by case=> E; apply: same; rewrite -E.
Qed.

(** What one step does to the threads of every process. *)
Lemma own_threads s : mlive s -> forall i, i < n -> exists g c, proc_ok (nproc s i) g c.
Proof.
move=> Hl i Hi; have [N [past [d [c [P [rest [fut I]]]]]]] := l_good Hl.
have Hi' : i < num s by rewrite (live_num Hl).
by eexists; eexists; exact: (k_proc (j_nodes I Hi')).
Qed.

Lemma closed_busy s i : mlive s -> i < n -> closed_at s i -> p_busy (nproc s i) = [::].
Proof.
move=> Hl Hi Hc; have Hi' : i < num s by rewrite (live_num Hl).
have [N [past [d [c [P [rest [fut I]]]]]]] := l_good Hl.
have Hm : mclosing (m_pc s).
  move: Hc; rewrite /closed_at; case: eqP => // Hz Hc; have Hi0 : 0 < i < n by rewrite Hi lt0n; apply/andP; split=> //; apply/eqP.
  by have [/(_ Hc)[]] := l_cl Hl Hi0.
have Hq : mquiet (m_pc s) by case: (m_pc s) Hm.
have [_ + _ _ _] := node_quiet (j_nodes I Hi') (j_quiet I Hq Hi').
by rewrite /keys /nproc; case: (p_busy _).
Qed.

Lemma master_zero s save s' : mlive s -> master_step s save = Ok s' ->
  pch (nproc s 0) (nproc s' 0) (closed_at s 0) (join_at s 0) (join_at s' 0) (notif_at s 0) (notif_at s' 0) None.
Proof.
move=> Hl; have Hn := live_num Hl; have Hn0 := n_gt0 HK; have [N [past [d [c [P [rest [fut I]]]]]]] := l_good Hl.
rewrite /closed_at /join_at /notif_at /=.
have keep : p_threads (nproc s' 0) = p_threads (nproc s 0) -> mjoin (m_pc s) = None -> mjoin (m_pc s') = None ->
    mnotify (m_pc s) = None -> mnotify (m_pc s') = None ->
    pch (nproc s 0) (nproc s' 0) (mclosing (m_pc s)) (mjoin (m_pc s)) (mjoin (m_pc s')) (mnotify (m_pc s)) (mnotify (m_pc s')) None.
  by move=> E -> -> -> ->; apply: PKeep.
have same : m_nodes s' = m_nodes s -> p_threads (nproc s' 0) = p_threads (nproc s 0) by rewrite /nproc /get_node => ->.
have zero w : m_nodes s' = set_nth node0 (m_nodes s) 0 w -> nproc s' 0 = n_proc w by rewrite /nproc /get_node => ->; rewrite nth_set_nth.
have one ix w : m_nodes s' = set_nth node0 (m_nodes s) ix w -> ix != 0 -> p_threads (nproc s' 0) = p_threads (nproc s 0).
  by rewrite /nproc /get_node => -> Hi; rewrite nth_set_nth /= eq_sym (negbTE Hi).
have Hix := l_ix Hl.
rewrite /master_step; case Epc: (m_pc s) keep Hix => [|b|b|ix k|ix k|ix b|ix b|b|b|t b|k|ix k|ix k|ix k r st|ix k r|k|t|t|t|] keep Hix.
- by case: (m_prog s) => [|[d' c'|b|] cs] [E]; apply: keep; rewrite -?E ?Epc.
- by case=> E; apply: keep; rewrite -?E //=; case: (save).
- by case: (m_store s) => [[d' r]|] // -[E]; apply: keep; rewrite -?E //=; case: ifP => //; case: (m_ocl s).
- case: ifP => [/eqP Ez|/negbT Hz].
    rewrite /flush_finished; case E: (foldM _ _ _) => [s1| | |] //= -[E']; have [F1 _ _] := fold_fields E.
    by apply: keep; rewrite -?E' //=; rewrite /nproc /get_node /= F1 nth_set_nth.
  case: ifP => _ [E]; apply: keep; rewrite -?E //=.
  + by rewrite /nproc /get_node /= nth_set_nth /= eq_sym (negbTE Hz).
  + by case: (k).
  + by case: (k).
- have Hz : ix != 0 by move: Hix; rewrite /= lt0n => /andP[].
  case: (n_out _) => [|[nc no|r st|bs] out].
  1,2,3: by case=> E; apply: keep; rewrite -?E ?Epc.
  case E: (foldM _ _ _) => [s1| | |] //= -[E']; have [F1 _ _] := fold_fields E.
  by apply: keep; rewrite -?E' //=; rewrite /nproc /get_node /= F1 nth_set_nth /= eq_sym (negbTE Hz).
- case: ifP => [/eqP Ez|/negbT Hz].
    have E3 := flush_ready_threads (n_proc (get_node s 0)).
    case: (flush_ready _) E3 => [p [nc no]] /= E3 [E]; apply: keep; rewrite -?E //=.
    by rewrite /nproc /get_node /= nth_set_nth.
  case: ifP => _ [E]; apply: keep; rewrite -?E //=.
  by rewrite /nproc /get_node /= nth_set_nth /= eq_sym (negbTE Hz).
- have Hz : ix != 0 by move: Hix; rewrite /= lt0n => /andP[].
  case: (n_out _) => [|[nc no|r st|bs] out].
  1,3,4: by case=> E; apply: keep; rewrite -?E ?Epc.
  by case=> E; apply: keep; rewrite -?E //=; rewrite /nproc /get_node /= nth_set_nth /= eq_sym (negbTE Hz).
- by case=> E; apply: keep; rewrite -?E //=; case: ifP.
- have give (o : bool) ix s1 : m_nodes s1 = m_nodes s ->
      (let s := mset_handed s1 (rcons (m_handed s1) (ix, (m_dir s1, b))) in
       let w := get_node s ix in
       if ix == 0 then
         pt <- pool_assign (n_proc w) b o ;; Ok (mgoto (set_node s 0 (nset_proc w pt.1)) (QNotify pt.2 b))
       else Ok (mgoto (minsert ix b (set_node s ix (post (MAssign o b) w))) QNext)) = Ok s' ->
      pch (nproc s 0) (nproc s' 0) (mclosing (QHand b)) (mjoin (QHand b)) (mjoin (m_pc s')) (mnotify (QHand b)) (mnotify (m_pc s')) None.
    move=> En; cbv zeta; have Eg j : get_node (mset_handed s1 (rcons (m_handed s1) (ix, (m_dir s1, b)))) j = get_node s j.
      by rewrite /get_node /= En.
    rewrite Eg; case: eqP => [Ei|/eqP Ei].
      case E: (pool_assign _ _ _) => [[p t]| | |] //= -[E']; have [x [R Hs Hp]] := assign_repl E.
      rewrite Ei in E R Hs Hp; rewrite (zero (nset_proc (get_node s 0) p)); last by rewrite -E' /= En Ei.
      by apply: (@PAssign _ _ _ _ _ _ _ _ t x) => //; [exact: assign_idle E | rewrite -E'].
    case=> E'; apply: keep; rewrite -?E' //=; by rewrite /nproc /get_node /= En nth_set_nth /= eq_sym (negbTE Ei).
  by case Eo: (m_ocl s) => [|ix ocl] /=; [case Ec: (m_cpu s) => [|ix cpu] //= |]; exact: give.
- case=> E; apply: (@PNotified _ _ _ _ _ _ _ _ t); rewrite -?E //=.
  by rewrite /nproc /get_node /= nth_set_nth.
- by case=> E; apply: keep; rewrite -?E //=; case: ifP.
- case: ifP => [/eqP Ez|/negbT Hz].
    case: (m_store s) => [ds|]; last by case=> E; apply: keep; rewrite -?E.
    have E3 := flush_global_threads (n_proc (get_node s 0)).
    case: (flush_global _) E3 => [p [r st]] /= E3 [E]; apply: keep; rewrite -?E //=.
    by rewrite /nproc /get_node /= nth_set_nth.
  case: ifP => _ [E]; apply: keep; rewrite -?E //=.
  by rewrite /nproc /get_node /= nth_set_nth /= eq_sym (negbTE Hz).
- have Hz : ix != 0 by move: Hix; rewrite /= lt0n => /andP[].
  case: (n_out _) => [|[nc no|r st|bs] out].
  1,2,4: by case=> E; apply: keep; rewrite -?E ?Epc.
  by case=> E; apply: keep; rewrite -?E //=; rewrite /nproc /get_node /= nth_set_nth /= eq_sym (negbTE Hz).
- by case=> E; apply: keep; rewrite -?E.
- by case=> E; apply: keep; rewrite -?E.
- by case: k Epc Hix keep => [b|d' c'|] Epc Hix keep [E]; apply: keep; rewrite -?E.
- case: ltnP => Ht [E]; last by apply: keep; rewrite -?E.
  apply: (@PShutting _ _ _ _ _ _ _ _ t); rewrite -?E //=.
  by rewrite /nproc /get_node /= nth_set_nth.
- case=> E; apply: (@PNotified _ _ _ _ _ _ _ _ t); rewrite -?E //=.
  by rewrite /nproc /get_node /= nth_set_nth.
- case Eph: (t_phase _) => [||||b m|b|] [E]; try by apply: PKeep; rewrite -E ?Epc.
  by apply: (@PJoined _ _ _ _ _ _ _ _ t); rewrite -?E.
- by case=> E; apply: PKeep; rewrite -E ?Epc.
Qed.

Lemma node_pch w w' : node_step w = Ok w' ->
  pch (n_proc w) (n_proc w') (nclosing (n_pc w)) (njoin (n_pc w)) (njoin (n_pc w')) (nnotify (n_pc w)) (nnotify (n_pc w')) None.
Proof.
rewrite /node_step; case Epc: (n_pc w) => [|t|t|t|t|].
- case: (n_in w) => [|[c|o b||||] ms].
  + by case=> <-; apply: PKeep; rewrite ?Epc.
  + by case=> <-; apply: PKeep; rewrite /= ?Epc.
  + rewrite /=; case E: (pool_assign _ _ _) => [[p t]| | |] //= -[<-] /=; have [x [R Hs Hp]] := assign_repl E.
    by apply: (@PAssign _ _ _ _ _ _ _ _ t x) => //; exact: assign_idle E.
  + have := flush_ready_threads (n_proc (nset_in w ms)); cbv beta zeta iota.
    case: (flush_ready _) => [p [nc no]] /= E3 [<-].
    by apply: PKeep; rewrite /= ?Epc.
  + have := flush_global_threads (n_proc (nset_in w ms)); cbv beta zeta iota.
    case: (flush_global _) => [p [r st]] /= E3 [<-].
    by apply: PKeep; rewrite /= ?Epc.
  + by case=> <-; apply: PKeep; rewrite /= ?Epc.
  + by case=> <-; apply: PKeep.
- by case=> <-; apply: (@PNotified _ _ _ _ _ _ _ _ t).
- case: ltnP => Ht [<-]; last by apply: PKeep.
  by apply: (@PShutting _ _ _ _ _ _ _ _ t).
- by case=> <-; apply: (@PNotified _ _ _ _ _ _ _ _ t).
- case Eph: (t_phase _) => [||||b m|b|] [<-]; try by apply: PKeep; rewrite ?Epc.
  by apply: (@PJoined _ _ _ _ _ _ _ _ t).
- by case=> <-; apply: PKeep; rewrite ?Epc.
Qed.

Lemma step_pch s a s' i : mlive s -> mstep contrib s a = Ok s' -> i < n ->
  pch (nproc s i) (nproc s' i) (closed_at s i) (join_at s i) (join_at s' i) (notif_at s i) (notif_at s' i) (woken a i).
Proof.
move=> Hl Hst Hi; have Hn := live_num Hl; have Hi' : i < num s by rewrite Hn.
have none : s = s' -> pch (nproc s i) (nproc s' i) (closed_at s i) (join_at s i) (join_at s' i) (notif_at s i) (notif_at s' i) (woken a i).
  by move=> <-; apply: PKeep.
have rest j w : set_node s j w = s' -> i <> j ->
    pch (nproc s i) (nproc s' i) (closed_at s i) (join_at s i) (join_at s' i) (notif_at s i) (notif_at s' i) (woken a i).
  by move=> <- /eqP/negbTE Hij; apply: PKeep; rewrite /nproc /join_at /notif_at get_set Hij.
case: a Hst none rest => [save|j|j t|j t] Hst none rest.
- case: (i =P 0) => [->|Hz]; first exact: master_zero Hst.
  have [|E1 E2] := @master_rest s save s' i Hst; first by rewrite Hi' lt0n andbT; apply/eqP.
  by apply: PKeep => //; rewrite /join_at /notif_at E2; case: eqP.
- move: Hst => /=; case: ifP => [/andP[Hj0 Hj]|_]; last by case=> /none.
  case E: (node_step _) => [w| | |] //= -[E']; case: (i =P j) => [Eij|]; last exact: rest E'.
  have := node_pch E; rewrite -E' /nproc /closed_at /join_at /notif_at get_set Eij eqxx.
  by rewrite eqn0Ngt Hj0.
- move: Hst => /=; case: ifP => Hj; last by case=> /none.
  case E: (thread_step _ _ _) => [p| | |] //= -[E']; case: (i =P j) => [Eij|]; last exact: rest E'.
  rewrite -Eij in E E'; have [g [c Hok]] := own_threads Hl Hi.
  have Ej : join_at s' i = join_at s i by rewrite -E' /join_at get_set eqxx.
  have Em : notif_at s' i = notif_at s i by rewrite -E' /notif_at get_set eqxx.
  have Ep : nproc s' i = p by rewrite -E' /nproc get_set eqxx.
  case: (ltnP t (size (p_threads (nproc s i)))) => Ht; last first.
    by apply: PKeep => //; rewrite Ep; move: E; rewrite /thread_step ltnNge Ht => -[<-].
  have [x [R H1 H2 _ _]] := thread_repl Hok Ht E; rewrite -Ep in R.
  have Hx := repl_nth t R; rewrite eqxx in Hx.
  apply: (@PThread _ _ _ _ _ _ _ _ t x) => // Eph.
    by rewrite -Hx Ep (thread_exit E Eph).
  by left; rewrite -Hx Ep (thread_wait E Eph).
- move: Hst => /=; case: ifP => Hj; last by case=> /none.
  case=> E'; case: (i =P j) => [Eij|]; last exact: rest E'.
  rewrite -Eij in E' *.
  have Ej : join_at s' i = join_at s i by rewrite -E' /join_at get_set eqxx.
  have Em : notif_at s' i = notif_at s i by rewrite -E' /notif_at get_set eqxx.
  have Ep : nproc s' i = wake (nproc s i) t by rewrite -E' /nproc get_set eqxx.
  case: (ltnP t (size (p_threads (nproc s i)))) => Ht; last first.
    by apply: PKeep => //; rewrite Ep /wake notify_out -?leqNgt.
  have [x [R H1 H2 _ _]] := notify_repl Ht; rewrite -[notify _ _]Ep in R.
  have Hx := repl_nth t R; rewrite eqxx in Hx.
  apply: (@PThread _ _ _ _ _ _ _ _ t x) => // Eph; last by right; rewrite eqxx.
  by rewrite -Hx Ep /wake notify_exit.
Qed.

(** ** Persistence *)
Definition mclosed (s : mstate) : Prop := forall i, i < n -> pclosed (nproc s i) (join_at s i).

Lemma mclosed_run acts s s' : mlive s -> mclosed s -> mrun contrib s acts = Ok s' -> mclosed s'.
Proof.
elim: acts s => [|a acts IH] s Hl C; first by case=> <-.
move=> /mrun_cons[s1 Hst Hrun]; have [Hl1 _] := step_meas Hmap Hjobs HK Hl Hst.
apply: IH Hrun => // i Hi; exact: (pclosed_step (step_pch Hl Hst Hi) (C i Hi)).
Qed.

Lemma mstranded_sleep s i t : mlive s -> mstranded s i t <-> i < n /\ psleep (nproc s i) (notif_at s i) t.
Proof. by move=> Hl; rewrite /mstranded /psleep (live_num Hl); split=> [[Hi [H1 H2 H3 H4]]|[Hi [H1 H2 H3 H4]]]. Qed.

Lemma mstranded_run acts s s' i t : mlive s -> mclosed s -> mstranded s i t -> ~~ has (wakes_thread i t) acts ->
  mrun contrib s acts = Ok s' -> mstranded s' i t.
Proof.
elim: acts s => [|a acts IH] s Hl C Ha; first by move=> _ [<-].
rewrite /= negb_or => /andP[H1 H2] /mrun_cons[s1 Hst Hrun]; have [Hl1 _] := step_meas Hmap Hjobs HK Hl Hst.
have C1 : mclosed s1 by move=> j Hj; exact: (pclosed_step (step_pch Hl Hst Hj) (C j Hj)).
apply: IH Hrun => //; have /(mstranded_sleep _ _ Hl)[Hi Hs] := Ha; apply/(mstranded_sleep _ _ Hl1); split=> //.
have [g [c Hok]] := own_threads Hl Hi.
apply: (psleep_step Hok (closed_busy Hl Hi) (C i Hi) Hs (step_pch Hl Hst Hi)).
by case: a H1 {Hst} => //= j u; case: eqP => //= _ /eqP Hu [].
Qed.

Lemma mstranded_not_ended s i t : mlive s -> mclosed s -> mstranded s i t -> ~ mended s.
Proof.
move=> Hl C /(mstranded_sleep _ _ Hl)[Hi Hs] [E1 E2]; have [g [c Hok]] := own_threads Hl Hi.
have Hj : join_at s i = None /\ closed_at s i.
  rewrite /join_at /closed_at E1; case: eqP => // /eqP Hz; rewrite E2 // (live_num Hl) Hi lt0n Hz //.
case: Hj => Hj Hcl; case: (psleep_cases Hok (closed_busy Hl Hi) (C i Hi) Hs) => [[_ _]|]; by rewrite ?Hcl ?Hj.
Qed.

(** ** Progress without wakeups *)
Definition is_wake (a : maction) : bool := if a is AWake _ _ then true else false.

Lemma notify_less s save s' : mlive s -> mnotify (m_pc s) <> None -> master_step s save = Ok s' -> meas s' < meas s.
Proof.
move=> Hl Hm Hst; have [Hl' H] := main_out Hmap Hjobs HK Hl Hst; apply: (meas_less Hjobs HK Hl').
have Hw : wmain K s' < wmain K s.
  move: Hst; rewrite /master_step /wmain; case Epc: (m_pc s) Hm => // [t b|t] _ [<-] /=; lia.
by case: H => // [_ _ E|_ _ E|E]; move: Hw; rewrite ?E ltnn.
Qed.

Lemma notify_run acts s s' : mlive s -> mnotify (m_pc s) <> None -> has runs_master acts ->
  mrun contrib s acts = Ok s' -> meas s' < meas s.
Proof.
elim: acts s => [|b acts IH] s Hl Hm //= Hit /mrun_cons[s1 Hst Hrun].
have [Hl1 H1] := step_meas Hmap Hjobs HK Hl Hst; have [Hl2 Hm2] := mrun_live Hmap Hjobs HK Hl1 Hrun.
have H3 : meas s1 <= meas s by case: H1 => [|[-> _]] //; exact: ltnW.
case Hb: (runs_master b) Hit {H1} => /= Hit.
  by case: b Hb Hst => // save _ /(notify_less Hl Hm); lia.
have Ep : m_pc s1 = m_pc s.
  case: b Hb Hst => //= [i|i t|i t] _; case: ifP => _.
  2,4,5,6: by case=> <-.
    by case: (node_step _) => //= w [<-].
  by case: (thread_step _ _ _) => //= p [<-].
by have := IH s1 Hl1; rewrite Ep => /(_ Hm Hit Hrun); lia.
Qed.

Lemma some_plain s : mlive s -> mnotify (m_pc s) = None ->
  [\/ mended s, exists2 a, active K s a & in_range K a /\ ~~ is_wake a | exists i t, mstranded s i t].
Proof.
move=> Hl Hm; case: (some_active Hjobs HK Hl) => [|[a Ha Hr]]; first by constructor 1.
case: a Ha Hr => [save|i|i t|i t] Ha Hr.
1,2,3: by constructor 2; eexists; first exact: Ha.
have [H1 H2] := Ha; have [Hi Ht] := Hr; have Hn := live_num Hl.
have Esz : size (p_threads (nproc s i)) = nth 0 K i by exact: (live_nsz i Hl).
have Hq : t_queue (thr_at s i t) <> [::] \/ t_shut (thr_at s i t) = true.
  move: H1; rewrite /tmeas /holding /todo_of /waiting H2 /= !cats0; case: (t_queue _) => [|bc q] /=; last by left.
  by case: (t_shut _) => // _; right.
case: (notif_at s i =P Some t) => Hnt; last first.
  by constructor 3; exists i, t; apply/(mstranded_sleep _ _ Hl); split=> //; split; rewrite ?Esz.
move: Hnt; rewrite /notif_at Hm; case: eqP => // /eqP Hz Hnt.
constructor 2; exists (ANode i) => /=; last by rewrite lt0n Hz Hi.
rewrite lt0n Hz Hi; split=> //.
have Hw : 0 < work s.
  have Hi' : i < num s by rewrite Hn.
  rewrite lt0n; apply/eqP => /(work0 Hjobs HK)/(_ Hi'); rewrite /nw.
  have : 0 < tsum (p_threads (n_proc (get_node s i))); last by lia.
  by case: posnP => // /tsum0/(_ t); move: H1; rewrite /thr_at => H1 E; rewrite E in H1.
rewrite eqn0Ngt Hw /=; split; last by move=> u Eu; rewrite Eu in Hnt.
have Es : nsz (get_node s i) = nth 0 K i by exact: Esz.
by case: (n_pc _) Hnt => //= u [Eu]; rewrite ?Es; lia.
Qed.
End Lost.

Section Ends.
Variable contrib : nat -> block -> store.
Hypothesis Hmap : forall c b, is_map (contrib c b).
Variables (jobs : seq job) (F0 : seq file).
Hypothesis Hjobs : jobs_wf jobs.
Variable kinds : seq (seq bool).
Hypothesis Hk : 0 < sumn [seq size k | k <- kinds].
Local Notation K := [seq size k | k <- kinds].
Local Notation mlive := (mlive contrib jobs F0 K).

Lemma plain_item acts a : mplain_round kinds acts -> in_range K a -> ~~ is_wake a -> has (item a) acts.
Proof.
case/and3P=> H1 _ /allP H2; case: a => [save|i|i t|i t] //=.
- rewrite size_map => /andP[Hi0 Hi] _; have /H2/andP[] : i \in iota 0 (size kinds) by rewrite mem_iota.
  by rewrite eqn0Ngt Hi0.
- rewrite size_map => -[Hi]; rewrite (nth_map [::]) // => Ht _.
  have /H2/andP[_ /allP H] : i \in iota 0 (size kinds) by rewrite mem_iota.
  by have /H : t \in iota 0 (size (nth [::] kinds i)) by rewrite mem_iota.
Qed.

Lemma not_spurious i t acts : ~~ has spurious acts -> ~~ has (wakes_thread i t) acts.
Proof. by elim: acts => [|a acts IH] //=; rewrite !negb_or => /andP[Ha /IH->]; case: a Ha. Qed.

Lemma start_closed : mclosed K (mstart kinds F0 (main_program jobs)).
Proof.
move=> i; rewrite size_map => Hi u; rewrite /nproc /get_node /= (nth_map [::]) //= size_map => Hu.
by rewrite (nth_map false).
Qed.

Lemma mplain_end k s segs : mlive s -> mclosed K s -> meas K s <= k -> k < size segs -> all (mplain_round kinds) segs ->
  exists2 s', mrun contrib s (flatten segs) = Ok s' & mended s' \/ exists i t, mstranded s' i t.
Proof.
have tot acts s1 : mlive s1 -> exists2 s2, mrun contrib s1 acts = Ok s2 & mlive s2.
  move=> Hl; have [s2 H _] := mrun_ok Hmap Hjobs acts (l_good Hl).
  by exists s2 => //; have [] := mrun_live Hmap Hjobs Hk Hl H.
elim: segs k s => [|a segs IH] k s Hl C Hm //= Hsz /andP[Ha Hall].
have [s1 H1 Hl1] := tot a s Hl; have C1 := mclosed_run Hmap Hjobs Hk Hl C H1.
have less : meas K s1 < meas K s ->
    exists2 s', mrun contrib s (a ++ flatten segs) = Ok s' & mended s' \/ exists i t, mstranded s' i t.
  by move=> Hlt; rewrite (mrun_cat _ H1); apply: (IH k.-1) => //; lia.
case Hq: (mnotify (m_pc s)) => [u|].
  apply: less; apply: (notify_run Hmap Hjobs Hk Hl) H1; first by rewrite Hq.
  by case/and3P: Ha.
have [He|[x Hx [Hr Hnw]]|[i [t Hs]]] := some_plain Hjobs Hk Hl Hq.
- have [s' Hs' _] := tot (a ++ flatten segs) s Hl; exists s' => //; left; exact: (ended_run Hmap Hjobs Hk Hl He Hs').
- by apply: less; exact: (run_active Hmap Hjobs Hk Hl Hx (plain_item Ha Hr Hnw) H1).
have [s' Hs' _] := tot (a ++ flatten segs) s Hl; exists s' => //; right; exists i, t.
apply: (mstranded_run Hmap Hjobs Hk Hl C Hs) Hs'; apply: not_spurious.
rewrite has_cat negb_or; case/and3P: Ha => _ -> _ /=; elim: segs Hall {IH Hsz less} => [|b segs IHs] //= /andP[/and3P[_ Hb _] /IHs].
by rewrite has_cat negb_or Hb.
Qed.

Lemma mends_or_lost acts s : mrun contrib (mstart kinds F0 (main_program jobs)) acts = Ok s ->
  exists k, forall rounds, k <= size rounds -> all (mplain_round kinds) rounds ->
    exists2 s', mrun contrib s (flatten rounds) = Ok s' & mended s' \/ exists i t, mstranded s' i t.
Proof.
move=> Hrun; have Hl0 := start_live contrib jobs F0 Hk; have [Hl _] := mrun_live Hmap Hjobs Hk Hl0 Hrun.
have C := mclosed_run Hmap Hjobs Hk Hl0 start_closed Hrun.
by exists (meas K s).+1 => segs; exact: (mplain_end Hl C).
Qed.

Lemma mlost_for_ever acts s i t : mrun contrib (mstart kinds F0 (main_program jobs)) acts = Ok s -> mstranded s i t ->
  forall acts' s', ~~ has (wakes_thread i t) acts' -> mrun contrib s acts' = Ok s' -> mstranded s' i t /\ ~ mended s'.
Proof.
move=> Hrun Hs acts' s' Hnw Hr.
have Hl0 := start_live contrib jobs F0 Hk; have [Hl _] := mrun_live Hmap Hjobs Hk Hl0 Hrun.
have C := mclosed_run Hmap Hjobs Hk Hl0 start_closed Hrun.
have Hs' := mstranded_run Hmap Hjobs Hk Hl C Hs Hnw Hr; split=> //.
have [Hl' _] := mrun_live Hmap Hjobs Hk Hl Hr.
exact: (mstranded_not_ended Hl' (mclosed_run Hmap Hjobs Hk Hl C Hr) Hs').
Qed.
End Ends.
