(** One process of the MPI worker pool as the master sees it. *)
Set Warnings "-notation-overridden,-ambiguous-paths".
From mathcomp Require Import all_ssreflect zify.
From Verif Require Import Res ResFacts OMap OMapFacts OMapPerm Store StoreSpec StoreProofs FilesProofs
  Pool PoolProofs Standalone StandaloneSpec Account StandaloneProofs Mpi MpiSpec.

Set Implicit Arguments.
Unset Strict Implicit.
Unset Printing Implicit Defensive.

(** What is on the way to a process and back. *)
Definition asgs (l : seq msg) : seq block := pmap (fun m => if m is MAssign _ b then Some b else None) l.
Definition nasg (o : bool) (l : seq msg) : nat := count (fun m => if m is MAssign o' _ then o' == o else false) l.
Definition rfin (l : seq reply) : seq block := flatten [seq (if r is RFinished bs then bs else [::]) | r <- l].
Definition rcpu (l : seq reply) : nat := sumn [seq (if r is RReady nc _ then nc else 0) | r <- l].
Definition rocl (l : seq reply) : nat := sumn [seq (if r is RReady _ no then no else 0) | r <- l].
Notation rsav := in_replies.

Definition is_asg (m : msg) : bool := if m is MAssign _ _ then true else false.
Definition plain (l : seq msg) : bool := all is_asg (if l is MConfig _ :: l' then l' else l).
Definition replies (m : msg) (r : reply) : bool :=
  match m, r with MReady, RReady _ _ | MSave, RSave _ _ | MFinished, RFinished _ => true | _, _ => false end.

Definition request (m : msg) : bool := match m with MReady | MSave | MFinished => true | _ => false end.

(** The state of the two queues: no request, known to be empty, a request, shutting down. *)
Inductive mode := Free | Empty | Ask of msg | Closed.
Definition chan_ok (q : mode) (w : node) : Prop :=
  match q with
  | Free => plain (n_in w) /\ n_out w = [::]
  | Empty => n_in w = [::] /\ n_out w = [::]
  | Ask m => [/\ (exists2 l, n_in w = rcons l m & plain l), n_out w = [::] & request m] \/
             (n_in w = [::] /\ exists2 r, n_out w = [:: r] & replies m r)
  | Closed => (n_in w = [::] \/ n_in w = [:: MShutdown]) /\ n_out w = [::]
  end.
Lemma asgs_cat l l' : asgs (l ++ l') = asgs l ++ asgs l'. Proof. exact: pmap_cat. Qed.
Lemma nasg_cat o l l' : nasg o (l ++ l') = nasg o l + nasg o l'. Proof. exact: count_cat. Qed.
Lemma asgs_req l m : request m -> asgs (rcons l m) = asgs l.
Proof. by case: m => // _; rewrite -cats1 asgs_cat cats0. Qed.
Lemma nasg_req o l m : request m -> nasg o (rcons l m) = nasg o l.
Proof. by case: m => // _; rewrite -cats1 nasg_cat addn0. Qed.

(** The first message a process receives. *)
Definition no_config (l : seq msg) : bool := if l is MConfig _ :: _ then false else true.
Variant popped (q : mode) (w : node) (m : msg) (ms : seq msg) : Prop :=
  | PopPlain of is_asg m || ~~ no_config [:: m] & no_config ms & forall p out pc, out = [::] -> chan_ok q (Node p ms out pc)
  | PopAsk of q = Ask m & request m & ms = [::]
  | PopClosed of q = Closed & m = MShutdown & ms = [::].

Lemma plain_pop m l : plain (m :: l) -> [/\ is_asg m || ~~ no_config [:: m], no_config l & plain l].
Proof.
have H l' : all is_asg l' -> no_config l' /\ plain l' by case: l' => [|[]].
by rewrite {1}/plain; case: m => [c|o b||||] //= /H [].
Qed.

Lemma chan_pop q w m ms : chan_ok q w -> n_in w = m :: ms -> n_out w = [::] /\ popped q w m ms.
Proof.
rewrite /chan_ok => + Ein; rewrite Ein; case: q => [[/plain_pop[H1 H2 H3] Ho]|[]|m'|[[//|[-> ->]] Ho]] //.
- by split=> //; constructor=> // p out pc ->.
- case=> [[[l El Hl] Ho Hm]|[]//]; split=> //.
  case: l El Hl => [[-> ->]|m0 l [-> ->]] //; first by constructor.
  move/plain_pop => [H1 H2 H3]; constructor=> // [|p out pc ->]; last by left; split=> //; exists l.
  by case: l H2 {H3} => //; case: (m') Hm.
- by split=> //; constructor.
Qed.

Section Node.
Variable contrib : nat -> block -> store.
Hypothesis Hmap : forall c b, is_map (contrib c b).
Local Notation sums := (sums contrib).
Local Notation acct := (acct contrib).

(** The configuration of the process, once it has received its messages. *)
Definition cfg_ok (cfg : option nat) (w : node) : Prop :=
  if n_in w is MConfig c :: _ then cfg = Some c /\ keys (n_proc w) = [::] else p_config (n_proc w) = cfg.

(** The process was given [hd], has reported [rep], and [sv] was taken from it; the master counts [g] and [n] idle
    OpenCL and CPU threads. *)
Record node_ok (cfg : option nat) (c : nat) (hd rep sv : seq block) (g n : nat) (q : mode) (w : node) : Prop := NodeOk
  { k_chan : chan_ok q w;
    k_cfg : cfg_ok cfg w;
    k_proc : proc_ok (n_proc w) (g + nasg true (n_in w) + rocl (n_out w)) (n + nasg false (n_in w) + rcpu (n_out w));
    k_acct : exists2 hp, hd = hp ++ asgs (n_in w) & acct (n_proc w) c hp (rep ++ rfin (n_out w)) (sv ++ rsav (n_out w));
    k_save : forall r st, List.In (RSave r st) (n_out w) ->
      [/\ is_set r, sums c r st & perm_eq hd rep -> sh_record (p_shared (n_proc w)) = [::]] }.

Variables (cfg : option nat) (c : nat) (hd rep sv : seq block) (g n : nat).
Hypothesis Hu : uniq hd.
Hypothesis Hcfg : cfg = Some c \/ cfg = None /\ hd = [::].
Local Notation ok := (node_ok cfg c hd rep sv g n).

Lemma done_only p p' : p_config p = Some c -> effect contrib p p' ->
  p_done p' = p_done p \/ exists b, p_done p' = rcons (p_done p) (b, Some c).
Proof.
move=> Hc [K1 K2 K3 K4 ->|b m K0 K1 K2 K3 K4 ->|b K1 K2 K3 K4 ->]; [by left| |by left].
by move: K0; rewrite Hc => -[<-]; right; exists b.
Qed.

Lemma none_same p p' gg nn : proc_ok p gg nn -> keys p = [::] -> p_config p' = p_config p -> size (p_threads p') = size (p_threads p) ->
  effect contrib p p' -> same p p'.
Proof.
move=> Hok Hk Hc Hsz [K1 K2 K3 K4 K5|b m K0 K1|b K1 K2] //.
- have : b \in keys p by apply: (pend_keys Hok); rewrite (perm_mem K1) inE eqxx.
  by rewrite Hk.
- by move/perm_size: K2; rewrite Hk.
Qed.

Lemma same_keys p p' : same p p' -> keys p' = keys p.
Proof. by case=> _ H _ _; rewrite /keys H. Qed.

Lemma ok_quiet_keys p hp l l' sv' : hd = hp ++ asgs l -> acct p c hp (rep ++ l') sv' -> perm_eq hd rep -> keys p = [::].
Proof.
move=> E A H; have /perm_size := a_keys A; have /perm_size := H.
by rewrite E !size_cat; case: (keys p) => //= *; lia.
Qed.

Lemma node_same q w p : ok q w -> same (n_proc w) p ->
  proc_ok p (g + nasg true (n_in w) + rocl (n_out w)) (n + nasg false (n_in w) + rcpu (n_out w)) ->
  ok q (nset_proc w p).
Proof.
move=> [K1 K2 K3 [hp E A] K5] Hs Hok; have [S1 S2 S3 [S4 S5 S6 S7]] := Hs; split=> //=.
- move: K2; rewrite /cfg_ok /=; case: (n_in w) => [|[c'|o b||||] l]; rewrite ?S6 //.
  by rewrite (same_keys Hs).
- by exists hp => //; exact: acct_same A.
- by rewrite S4.
Qed.

Lemma node_thread q w t : ok q w ->
  exists p, [/\ thread_step contrib (n_proc w) t = Ok p, ok q (nset_proc w p) &
    p_done p = p_done (n_proc w) \/ cfg = Some c /\ exists b, p_done p = rcons (p_done (n_proc w)) (b, Some c)].
Proof.
move=> K; have [p [H1 H2 H3 H4 H5]] := thread_step_ok contrib t (k_proc K); exists p.
case: K => [K1 K2 K3 [hp E A] K5].
have Hnone : keys (n_proc w) = [::] -> [/\ thread_step contrib (n_proc w) t = Ok p, ok q (nset_proc w p) &
    p_done p = p_done (n_proc w) \/ cfg = Some c /\ exists b, p_done p = rcons (p_done (n_proc w)) (b, Some c)].
  move=> Hk; have Hs := none_same K3 Hk H3 H4 H5; split=> //; first by apply: node_same => //; split=> //; exists hp.
  by case: Hs => _ _ _ [_ -> _ _]; left.
have Hnone' : hd = [::] -> keys (n_proc w) = [::].
  move=> Ehd; move: E; rewrite Ehd; case: hp A => // A _.
  by have := a_keys A; rewrite perm_sym => /perm_nilP; case: (keys _).
case: Hcfg => [Ec|[Ec Ehd]]; last exact/Hnone/Hnone'.
have [Hc|Hk] : p_config (n_proc w) = Some c \/ keys (n_proc w) = [::].
  move: K2; rewrite /cfg_ok Ec; case: (n_in w) => [|[c'|o b||||] l]; try by left.
  by case; right.
- split=> //; last by case: (done_only Hc H5) => H; [left|right].
  have Huh : uniq hp by move: Hu; rewrite E cat_uniq => /andP[].
  split=> //=; last first.
  - move=> r st Hr; have [J1 J2 J3] := K5 r st Hr; split=> // Hq.
    have Hk := ok_quiet_keys E A Hq.
    by have [_ _ _ [-> _ _ _]] := none_same K3 Hk H3 H4 H5; exact: J3.
  - by exists hp => //; apply: acct_step H5 A.
  move: K2; rewrite /cfg_ok /=; case: (n_in w) => [|[c'|o b||||] l]; rewrite ?H3 //.
  by move=> [-> Hk]; have Hs := none_same K3 Hk H3 H4 H5; rewrite (same_keys Hs).
- exact: Hnone.
Qed.

Lemma node_wake q w t : ok q w -> ok q (nset_proc w (wake (n_proc w) t)).
Proof. by move=> K; have [H1 H2] := notify_ok t (k_proc K); exact: node_same. Qed.

Lemma ok_pc q w x : ok q w -> ok q (nset_pc w x). Proof. by case. Qed.

(** The main thread of the process. *)
Lemma node_main q w : ok q w ->
  exists w', [/\ node_step w = Ok w', ok q w' & p_done (n_proc w') = p_done (n_proc w)].
Proof.
move=> K; rewrite /node_step; case Epc: (n_pc w) => [|t|t|t|t|].
- (* a message *)
  case Ein: (n_in w) => [|m ms]; first by exists w.
  have K' := K; case: K => [K1 K2 K3 [hp E A] K5]; rewrite /cfg_ok Ein /= in K2 K3 E.
  have [Hout Hpop] := chan_pop K1 Ein.
  rewrite Hout /= ?addn0 ?cats0 in K3 A.
  case: m Ein K2 K3 E Hpop => [c'|o b||||] Ein K2 K3 E Hpop.
  + (* configuration *)
    eexists; split; first reflexivity; last by [].
    case: K2 => Ec Hk.
    have Hp : pend (n_proc w) = [::].
      by case Ep: (pend _) => [|b l] //; have := pend_keys K3 (x := b); rewrite Ep inE eqxx Hk => /(_ isT).
    case: Hpop => // _ Hms Hch; split=> /=; rewrite ?Hout ?cats0 ?addn0 //; first exact: Hch.
    * by move: Hms; rewrite /cfg_ok /= Ec; case: (ms) => [|[]].
    * by apply: config_ok => //; move: K3; rewrite add0n.
    * by exists hp => //; case: A => *; split.
  + (* a block *)
    have Hc : p_config (n_proc w) = Some c by case: Hcfg => [<-|[_ Ehd]] //; move: E; rewrite Ehd; case: (hp).
    have Hb : b \notin keys (n_proc w).
      have := Hu; rewrite E cat_uniq => /and3P[_ /norP[Hb _] _]; have {Hb} : b \notin hp by [].
      by apply: contra => Hb; rewrite (perm_mem (a_keys A)) mem_cat Hb.
    have [|//|p' [t [A1 A2 A3 A4 [A5 A6 A7 A8 A9]]]] := assign_ok K3 Hb _ _ (opencl := o); first by rewrite Hc.
      by case: (o); lia.
    rewrite A1 /=; eexists; split; first reflexivity; last by [].
    case: Hpop => // _ Hms Hch; split=> /=; rewrite ?Hout ?cats0 ?addn0 //; first exact: Hch.
    * move: Hms K2; rewrite /cfg_ok /= -A8; by case: (ms) => [|[]].
    * by move: A2; case: (o) => /=; rewrite ?addn0 ?add0n ?addnS ?addnA.
    * exists (rcons hp b); first by rewrite cat_rcons.
      exact: acct_assign A3 A4 A5 A6 A7 A.
  + (* ready threads *)
    have := flush_ready_ok K3; case: (flush_ready _) => [p' [nc no]] [H1 H2 H3 H4].
    eexists; split; first reflexivity; last by case: H2 => _ _ _ [].
    case: Hpop => // Eq _ Ems; split=> /=; rewrite ?Hout /rocl /rcpu /rfin /in_replies /= ?cats0 ?addn0 //.
    * by rewrite Eq Ems /chan_ok /= Hout; right; split=> //; eexists; first reflexivity.
    * by rewrite /cfg_ok /= Ems; case: H2 => _ _ _ [_ _ -> _].
    * by rewrite Ems; exists hp; [rewrite E Ems | exact: acct_same A].
    * by move=> r st [].
  + (* the shared store *)
    rewrite /flush_global /flush_static; eexists; split; first reflexivity; last by [].
    case: Hpop => // Eq _ Ems; split=> /=; rewrite ?Hout /rocl /rcpu /rfin /in_replies /= ?cats0 ?addn0 //.
    * by rewrite Eq Ems /chan_ok /= Hout; right; split=> //; eexists; first reflexivity.
    * by rewrite /cfg_ok /= Ems.
    * by move: K3; rewrite Ems /= !addn0; case=> *; split.
    * rewrite Ems; exists hp; first by rewrite E Ems.
      exact: acct_global.
    * by move=> r st [[<- <-]|//]; split; [exact: (a_set A) | exact: (a_sum A) | ].
  + (* finished blocks *)
    rewrite /flush_finished; eexists; split; first reflexivity; last by [].
    case: Hpop => // Eq _ Ems; split=> /=; rewrite ?Hout /rocl /rcpu /rfin /in_replies /= ?cats0 ?addn0 //.
    * by rewrite Eq Ems /chan_ok /= Hout; right; split=> //; eexists; first reflexivity.
    * by rewrite /cfg_ok /= Ems.
    * by move: K3; rewrite Ems /= !addn0; case=> *; split.
    * rewrite Ems; exists hp; first by rewrite E Ems.
      exact: acct_finished.
    * by move=> r st [].
  + (* shutting down *)
    eexists; split; first reflexivity; last by [].
    case: Hpop => // Eq _ Ems; split=> /=; rewrite ?Hout ?cats0 ?addn0 //.
    * by rewrite Eq Ems /chan_ok /= Hout; split=> //; left.
    * by rewrite /cfg_ok /= Ems.
    * by exists hp.
- have [H1 H2] := notify_ok t (k_proc K); eexists; split; first reflexivity; last by case: H2 => _ _ _ [].
  by apply: ok_pc; exact: node_same.
- case: ltnP => Ht; last by eexists; split; [reflexivity|exact: ok_pc|].
  have [H1 H2] := shutdown_ok (k_proc K) Ht; eexists; split; first reflexivity; last by case: H2 => _ _ _ [].
  by apply: ok_pc; exact: node_same.
- have [H1 H2] := notify_ok t (k_proc K); eexists; split; first reflexivity; last by case: H2 => _ _ _ [].
  by apply: ok_pc; exact: node_same.
- by eexists; split; first reflexivity; case: (t_phase _) => // *; exact: ok_pc.
- by exists w.
Qed.
End Node.

(** ** What the master does to a process *)
Section Master.
Variable contrib : nat -> block -> store.
Variables (cfg : option nat) (c : nat).
Local Notation sums := (sums contrib).
Local Notation ok := (node_ok contrib cfg c).

Lemma node_weak hd rep sv g n w : ok hd rep sv g n Empty w -> ok hd rep sv g n Free w.
Proof. by case=> [[H1 H2] K2 K3 K4 K5]; split=> //; rewrite /chan_ok H1 H2. Qed.

Lemma node_post hd rep sv g n w m : request m -> ok hd rep sv g n Free w -> ok hd rep sv g n (Ask m) (post m w).
Proof.
move=> Hm [[H1 H2] K2 K3 [hp E A] K5]; split=> //=.
- by left; split=> //; exists (n_in w).
- by move: K2; rewrite /cfg_ok /=; case: (n_in w) => [|[]] //=; case: (m) Hm.
- by rewrite !nasg_req.
- by exists hp; rewrite ?asgs_req.
Qed.

(** The queues of a process after the answer. *)
Lemma chan_answer m w r out : chan_ok (Ask m) w -> n_out w = r :: out ->
  [/\ n_in w = [::], n_out w = [:: r], out = [::] & replies m r].
Proof. by move=> [[_ -> //]|[-> [r' -> H]]] [<- <-]. Qed.

Lemma node_finished hd rep sv g n w bs out : ok hd rep sv g n (Ask MFinished) w -> n_out w = RFinished bs :: out ->
  ok hd (rep ++ bs) sv g n Empty (nset_out w out) /\ exists K, perm_eq hd (bs ++ K ++ rep).
Proof.
move=> [K1 K2 K3 [hp E A] K5] Eo; have [Hin Ho Ee _] := chan_answer K1 Eo.
rewrite Ho Hin /rocl /rcpu /rfin /in_replies /= ?cats0 ?addn0 in K3 A E; split; last first.
  exists (keys (n_proc w) ++ p_finished (n_proc w)); rewrite E; apply: (perm_trans (a_keys A)).
  by rewrite !catA perm_catC -!catA.
split=> //=; rewrite ?Hin ?Ee ?cats0 /= ?addn0 //.
by exists hp; rewrite ?cats0.
Qed.

Lemma node_ready hd rep sv g n w nc no out : ok hd rep sv g n (Ask MReady) w -> n_out w = RReady nc no :: out ->
  ok hd rep sv (g + no) (n + nc) Empty (nset_out w out).
Proof.
move=> [K1 K2 K3 [hp E A] K5] Eo; have [Hin Ho Ee _] := chan_answer K1 Eo.
rewrite Ho Hin /rocl /rcpu /rfin /in_replies /= ?cats0 ?addn0 in K3 A E.
split=> //=; rewrite ?Hin ?Ee ?cats0 /= ?addn0 //.
by exists hp; rewrite ?cats0.
Qed.

(** Everything was reported: nothing is held. *)
Lemma node_quiet hd rep sv g n q w : ok hd rep sv g n q w -> perm_eq hd rep ->
  [/\ asgs (n_in w) = [::], keys (n_proc w) = [::], p_finished (n_proc w) = [::], pend (n_proc w) = [::] &
      perm_eq hd (done_at (n_proc w) c)].
Proof.
move=> [K1 K2 K3 [hp E A] K5] Hq.
have [E1 E2 E3] : [/\ asgs (n_in w) = [::], keys (n_proc w) = [::] & p_finished (n_proc w) = [::]].
  move: (perm_size (a_keys A)) (perm_size Hq); rewrite E !size_cat.
  by case: (asgs _) => [|? ?] /=; case: (keys _) => [|? ?] /=; case: (p_finished _) => [|? ?] /=; split=> //; lia.
have [Q1 Q2 Q3] := acct_quiet K3 A E2 E3; split=> //.
by rewrite E E1 cats0.
Qed.

(** Everything was saved: the shared store is empty. *)
Lemma node_clean hd rep sv g n q w : ok hd rep sv g n q w -> perm_eq hd sv ->
  p_shared (n_proc w) = shared_empty /\ rsav (n_out w) = [::].
Proof.
move=> [K1 K2 K3 [hp E A] K5] Hq.
have [E1 E2] : rsav (n_out w) = [::] /\ sh_record (p_shared (n_proc w)) = [::].
  move: (perm_size (a_pend A)) (perm_size (a_out A)) (perm_size Hq); rewrite E !size_cat.
  by case: (rsav _) => [|? ?] /=; case: (sh_record _) => [|? ?] /=; split=> //; lia.
by split=> //; exact: acct_empty A E2.
Qed.

Lemma node_saved hd rep sv g n w r st out : ok hd rep sv g n (Ask MSave) w -> n_out w = RSave r st :: out ->
  [/\ ok hd rep (sv ++ r) g n Empty (nset_out w out), is_set r, sums c r st &
      perm_eq hd rep -> perm_eq hd (sv ++ r)].
Proof.
move=> K Eo; have K' := K; case: K => [K1 K2 K3 [hp E A] K5]; have [Hin Ho Ee _] := chan_answer K1 Eo.
have [J1 J2 J3] : [/\ is_set r, sums c r st & perm_eq hd rep -> sh_record (p_shared (n_proc w)) = [::]].
  by apply: (K5 r st); rewrite Ho; left.
rewrite Ho Hin /rocl /rcpu /rfin /in_replies /= ?cats0 ?addn0 in K3 A E; split=> //.
  split=> //=; rewrite ?Hin ?Ee ?cats0 /= ?addn0 //.
  by exists hp; rewrite ?cats0.
move=> Hq; have [_ _ _ _ Q] := node_quiet K' Hq; apply: (perm_trans Q).
by have := a_out A; rewrite (J3 Hq) cats0.
Qed.

(** A block for a process. *)
Lemma node_give hd rep sv g n w o b : ok hd rep sv ((o == true) + g) ((o == false) + n) Free w ->
  ok (rcons hd b) rep sv g n Free (post (MAssign o b) w).
Proof.
move=> [[H1 H2] K2 K3 [hp E A] K5]; split=> //=.
- by split=> //=; move: H1; rewrite /plain; case: (n_in w) => [|[]] //= *; rewrite all_rcons.
- by move: K2; rewrite /cfg_ok /=; case: (n_in w) => [|[]].
- rewrite -cats1 !nasg_cat /= !addn0; move: K3.
  have -> a b' c' d : a + b' + c' + d = b' + (c' + a) + d by lia.
  have -> a b' c' d : a + b' + c' + d = b' + (c' + a) + d by lia.
  by [].
- by exists hp => //; rewrite E -!cats1 asgs_cat /= -catA.
- by rewrite H2.
Qed.

(** The next configuration. *)
Lemma node_switch hd rep sv g n w c' : ok hd rep sv g n Empty w -> perm_eq hd rep -> perm_eq hd sv ->
  done_at (n_proc w) c' = [::] ->
  node_ok contrib (Some c') c' [::] [::] [::] g n Free (post (MConfig c') w) /\
  node_ok contrib (Some c') c' [::] [::] [::] g n Empty (nset_proc w (set_config (n_proc w) (Some c'))).
Proof.
move=> K Hq Hs Hd; have [Q1 Q2 Q3 Q4 Q5] := node_quiet K Hq; have [C1 C2] := node_clean K Hs.
case: K => [[H1 H2] K2 K3 [hp E A] K5].
rewrite H1 H2 /= in K3.
have A' : acct contrib (n_proc w) c' [::] [::] [::] by apply: acct_nil.
split.
  split=> //=; rewrite ?H1 ?H2 //.
  - by rewrite /cfg_ok /= H1.
  - by exists [::] => //; rewrite /= ?H2.
split=> //=; rewrite ?H1 ?H2 //.
- by rewrite /cfg_ok /= H1.
- exact: config_ok.
- by exists [::] => //; case: A' => *; split.
Qed.

Lemma node_close hd rep sv g n w : ok hd rep sv g n Empty w ->
  ok hd rep sv g n Closed w /\ ok hd rep sv g n Closed (post MShutdown w).
Proof.
move=> [[H1 H2] K2 K3 [hp E A] K5]; split; split=> //=.
- by split=> //; left.
- by exists hp.
- by rewrite /chan_ok /= H1; split=> //; right.
- by move: K2; rewrite /cfg_ok /= H1.
- by move: K3; rewrite H1.
- by exists hp => //; rewrite E H1.
Qed.

(** ** The threads of the master *)
Section Own.
Variables (hd rep sv : seq block) (g n : nat) (w : node).
Hypothesis K : ok hd rep sv g n Empty w.
Let p := n_proc w.

Lemma own_facts : [/\ n_in w = [::], n_out w = [::], p_config p = cfg, proc_ok p g n & acct contrib p c hd rep sv].
Proof.
case: K => [[H1 H2] K2 K3 [hp E A] K5]; rewrite H1 H2 /= ?addn0 ?cats0 in K3 A E.
by split=> //; [move: K2; rewrite /cfg_ok H1 | rewrite E].
Qed.

Lemma own_ok hd' rep' sv' g' n' p' cfg' c' : p_config p' = cfg' -> proc_ok p' g' n' ->
  acct contrib p' c' hd' rep' sv' -> node_ok contrib cfg' c' hd' rep' sv' g' n' Empty (nset_proc w p').
Proof.
have [H1 H2 _ _ _] := own_facts; move=> H3 H4 H5; split=> //=; rewrite ?H1 ?H2 //.
- by rewrite /cfg_ok /= H1.
- by rewrite /= ?addn0.
- by exists hd'; rewrite ?cats0.
Qed.

Lemma own_finished : ok hd (rep ++ p_finished p) sv g n Empty (nset_proc w (set_finished p [::])) /\
  exists L, perm_eq hd (p_finished p ++ L ++ rep).
Proof.
have [H1 H2 H3 H4 H5] := own_facts; split.
  by apply: own_ok => //; [case: H4 | exact: acct_finished].
by exists (keys p); apply: (perm_trans (a_keys H5)); rewrite perm_catCA.
Qed.

Lemma own_ready : let: (p', (nc, no)) := flush_ready p in
  ok hd rep sv (g + no) (n + nc) Empty (nset_proc w p') /\ p_done p' = p_done p.
Proof.
have [H1 H2 H3 H4 H5] := own_facts; have := flush_ready_ok H4.
case: (flush_ready p) => [p' [nc no]] [F1 F2 F3 F4]; have [S1 S2 S3 [S4 S5 S6 S7]] := F2.
by split=> //; apply: own_ok; rewrite ?S6 //; exact: acct_same H5.
Qed.

Lemma own_saved : [/\ ok hd rep (sv ++ sh_record (p_shared p)) g n Empty (nset_proc w (set_shared p shared_empty)),
  is_set (sh_record (p_shared p)), sums c (sh_record (p_shared p)) (sh_store (p_shared p)) &
  perm_eq hd rep -> perm_eq hd (sv ++ sh_record (p_shared p))].
Proof.
have [H1 H2 H3 H4 H5] := own_facts; split; try by case: H5.
  by apply: own_ok => //; [case: H4 | exact: acct_global].
by move=> Hq; have [_ _ _ _ Q] := node_quiet K Hq; apply: (perm_trans Q); exact: (a_out H5).
Qed.

Lemma own_assign b (o : bool) : (if o then 0 < g else 0 < n) -> isSome cfg -> b \notin hd ->
  exists p' t, [/\ pool_assign p b o = Ok (p', t), p_done p' = p_done p &
    ok (rcons hd b) rep sv (if o then g.-1 else g) (if o then n else n.-1) Empty (nset_proc w p')].
Proof.
have [H1 H2 H3 H4 H5] := own_facts; move=> Hgn Hc Hb.
have Hk : b \notin keys p by apply: contra Hb => Hb; rewrite (perm_mem (a_keys H5)) mem_cat Hb.
have [|p' [t [A1 A2 A3 A4 [A5 A6 A7 A8 A9]]]] := assign_ok H4 Hk _ Hgn; first by rewrite H3.
exists p', t; split=> //; apply: own_ok => //; first by rewrite A8.
exact: acct_assign A3 A4 A5 A6 A7 H5.
Qed.

Lemma own_same p' : same p p' -> proc_ok p' g n -> ok hd rep sv g n Empty (nset_proc w p').
Proof.
have [H1 H2 H3 H4 H5] := own_facts; move=> Hs Hp; apply: own_ok => //; last exact: acct_same H5.
by case: Hs => _ _ _ [_ _ -> _].
Qed.
End Own.
End Master.
