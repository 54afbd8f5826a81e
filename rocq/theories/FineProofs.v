(** Critical sections taken apart behave like the steps of Pool.v and Standalone.v. *)
Set Warnings "-notation-overridden,-ambiguous-paths".
From mathcomp Require Import all_ssreflect zify.
From Verif Require Import Res ResFacts OMap Store StoreSpec Pool Standalone StandaloneSpec StandaloneTheorems Fine.

Set Implicit Arguments.
Unset Strict Implicit.
Unset Printing Implicit Defensive.

(** ** Who holds which mutex, as told by the positions *)
Definition tP (m : tmicro) : bool := match m with MFin0 | MFin1 _ | MFin2 | MFin3 | MFin4 => true | _ => false end.
Definition tS (m : tmicro) : bool := match m with MFlush0 | MFlush1 _ => true | _ => false end.
Definition tT (m : tmicro) : bool :=
  match m with MTest0 | MTest1 _ | MTest2 _ _ | MPop0 | MPop1 _ | MPop2 _ => true | _ => false end.
Definition mP (n : mmicro) : bool :=
  match n with
  | NFin0 | NFin1 _ | NFin2 _ | NReady _ _ _ | NReadyEnd _ _
  | NAssign0 | NAssign1 _ | NAssign2 _ | NAssign3 _ | NAssign4 _ | NAssign5 | NAssign6 => true
  | _ => false end.
Definition mS (n : mmicro) : bool :=
  match n with NGlob0 | NGlob1 _ | NGlob2 _ | NGlob3 _ _ | NGlob4 _ _ => true | _ => false end.
Definition mT (n : mmicro) (q : pc) : option nat :=
  match n with
  | NAssign3 t | NAssign4 t => Some t
  | NShut0 | NShut1 => if q is PShut t then Some t else None
  | _ => None end.

Definition thr_at (p : proc) (t : nat) : thread := nth thread0 (p_threads p) t.
Definition mic (f : fstate) (t : nat) : tmicro := nth MNone (f_thr f) t.

Definition inP (f : fstate) (a : actor) : bool := if a is Some t then tP (mic f t) else mP (f_main f).
Definition inS (f : fstate) (a : actor) : bool := if a is Some t then tS (mic f t) else mS (f_main f).
Definition inT (f : fstate) (t : nat) (a : actor) : bool :=
  if a is Some t' then (t' == t) && tT (mic f t') else mT (f_main f) (s_pc (f_st f)) == Some t.

(** ** Positions within a critical section fit the positions of Pool.v and Standalone.v *)
Definition tok (m : tmicro) (ph : phase) : Prop :=
  match m with
  | MNone => True
  | MTest0 | MTest1 _ | MTest2 _ _ => ph = TTest
  | MPop0 | MPop1 _ | MPop2 _ => ph = TPop
  | MFlush0 | MFlush1 _ => exists b c, ph = TWork b (Some c)
  | MFin0 | MFin1 _ | MFin2 | MFin3 | MFin4 => exists b, ph = TFlushed b
  end.
Definition mok (n : mmicro) (s : state) : Prop :=
  match n with
  | NNone => True
  | NFin0 | NFin1 _ | NFin2 _ => (exists b, s_pc s = PFillFinished b) \/ (exists k, s_pc s = PWait k)
  | NReady _ _ _ | NReadyEnd _ _ => exists b, s_pc s = PFillReady b
  | NAssign0 | NAssign1 _ | NAssign2 _ | NAssign3 _ | NAssign4 _ =>
      (exists b, s_pc s = PHand b) /\ (nocl s == 0) && (ncpu s == 0) = false
  | NAssign5 => exists t b, s_pc s = PNotify t b
  | NAssign6 => s_pc s = PNext
  | NGlob0 | NGlob1 _ | NGlob2 _ | NGlob3 _ _ | NGlob4 _ _ => (exists k, s_pc s = PSave k) /\ file_store s <> None
  | NShut0 | NShut1 => exists2 t, s_pc s = PShut t & t < size (p_threads (s_proc s))
  end.

Lemma tok_wait m : tok m TWait -> m = MNone.
Proof. by case: m => //= [[b [d Eb]]|i [b [d Eb]]|[b Eb]|t [b Eb]|[b Eb]|[b Eb]|[b Eb]]. Qed.

(** ** The protected data compared with the coarse state *)
Definition poolr (p : proc) := (p_idle p, p_ready p, p_busy p, p_finished p).
Definition treg (thr : thread) := (t_queue thr, t_shut thr).
Definition tcore (thr : thread) := (t_opencl thr, t_phase thr).

Definition pick (idle : seq nat) (opencl : bool) : option (nat * seq nat) :=
  if idle is t0 :: _ then
    Some (if opencl then (t0, behead idle) else (last t0 idle, rev (behead (rev idle))))
  else None.

(** What a thread, respectively the main thread, has done so far to the lists of the pool; [p] is the coarse
    process, [r] the lists. *)
Definition PT (m : tmicro) (b : block) (p : proc) (r : seq nat * seq nat * seq (block * nat) * seq block) : Prop :=
  match m with
  | MFin1 t => om_find block_lt (p_busy p) b = Some t /\ r = poolr p
  | MFin2 => exists2 t, om_find block_lt (p_busy p) b = Some t &
      r = (p_idle p, rcons (p_ready p) t, p_busy p, p_finished p)
  | MFin3 => exists2 t, om_find block_lt (p_busy p) b = Some t &
      r = (p_idle p, rcons (p_ready p) t, p_busy p, rcons (p_finished p) b)
  | MFin4 => exists2 t, om_find block_lt (p_busy p) b = Some t &
      r = (p_idle p, rcons (p_ready p) t, om_erase block_lt (p_busy p) b, rcons (p_finished p) b)
  | _ => r = poolr p
  end.
Definition PM (n : mmicro) (s : state) (r : seq nat * seq nat * seq (block * nat) * seq block) : Prop :=
  let p := s_proc s in
  match n with
  | NFin1 bs => bs = p_finished p /\ r = poolr p
  | NFin2 bs => bs = p_finished p /\ r = (p_idle p, p_ready p, p_busy p, [::])
  | NReady i c o =>
      let x := foldl (flush_ready_step (p_threads p)) (p_idle p, (0, 0)) (take i (p_ready p)) in
      [/\ i <= size (p_ready p), (c, o) = x.2 & r = (x.1, p_ready p, p_busy p, p_finished p)]
  | NReadyEnd c o =>
      let x := foldl (flush_ready_step (p_threads p)) (p_idle p, (0, 0)) (p_ready p) in
      (c, o) = x.2 /\ r = (x.1, [::], p_busy p, p_finished p)
  | NAssign1 t => exists2 idle, pick (p_idle p) (nocl s != 0) = Some (t, idle) &
      r = (idle, p_ready p, p_busy p, p_finished p)
  | NAssign2 t | NAssign3 t | NAssign4 t => exists idle,
      [/\ pick (p_idle p) (nocl s != 0) = Some (t, idle), t < size (p_threads p),
          (nocl s != 0) = t_opencl (thr_at p t) &
          r = (idle, p_ready p, om_set block_lt (p_busy p) (hand_block s) t, p_finished p)]
  | _ => r = poolr p
  end.
Definition ST (m : tmicro) (b : block) (st : store) (sh x : shared) : Prop :=
  match m with
  | MFlush1 i => i <= size st /\
      x = Shared (os_insert block_lt (sh_record sh) b) (merge_into (sh_store sh) (take i st))
  | _ => x = sh
  end.
Definition SM (n : mmicro) (sh x : shared) : Prop :=
  match n with
  | NGlob1 r => r = sh_record sh /\ x = sh
  | NGlob2 r => r = sh_record sh /\ x = Shared [::] (sh_store sh)
  | NGlob3 r st => [/\ r = sh_record sh, st = sh_store sh & x = Shared [::] (sh_store sh)]
  | NGlob4 r st => [/\ r = sh_record sh, st = sh_store sh & x = Shared [::] [::]]
  | _ => x = sh
  end.
Definition TT (m : tmicro) (y x : seq (block * option nat) * bool) : Prop :=
  match m with
  | MTest1 sh => sh = y.2 /\ x = y
  | MTest2 sh e => [/\ sh = y.2, e = nilp y.1 & x = y]
  | MPop1 z => ohead y.1 = Some z /\ x = y
  | MPop2 z => exists2 q, y.1 = z :: q & x = (q, y.2)
  | _ => x = y
  end.
Definition TM (n : mmicro) (s : state) (y x : seq (block * option nat) * bool) : Prop :=
  match n with
  | NAssign4 _ => x = (rcons y.1 (hand_block s, p_config (s_proc s)), y.2)
  | NShut1 => x = (y.1, true)
  | _ => x = y
  end.

Section Simulation.
Variable contrib : nat -> block -> store.

Definition relP (f : fstate) (c : state) : Prop :=
  match f_pool f with
  | None => poolr (f_proc f) = poolr (s_proc c)
  | Some None => PM (f_main f) c (poolr (f_proc f))
  | Some (Some t) => PT (mic f t) (work_block (t_phase (thr_at (s_proc c) t))) (s_proc c) (poolr (f_proc f))
  end.
Definition relS (f : fstate) (c : state) : Prop :=
  match f_static f with
  | None => p_shared (f_proc f) = p_shared (s_proc c)
  | Some None => SM (f_main f) (p_shared (s_proc c)) (p_shared (f_proc f))
  | Some (Some t) =>
      let ph := t_phase (thr_at (s_proc c) t) in
      ST (mic f t) (work_block ph) (work_store contrib ph) (p_shared (s_proc c)) (p_shared (f_proc f))
  end.
Definition relT (f : fstate) (c : state) (t : nat) : Prop :=
  let y := treg (thr_at (s_proc c) t) in
  let x := treg (thr_at (f_proc f) t) in
  match nth None (f_data f) t with
  | None => x = y
  | Some None => TM (f_main f) c y x
  | Some (Some t') => TT (mic f t') y x
  end.

Record R (f : fstate) (c : state) : Prop := MkR
  { R_st : f_st f = with_proc c (f_proc f);
    R_conf : p_config (f_proc f) = p_config (s_proc c);
    R_done : p_done (f_proc f) = p_done (s_proc c);
    R_size : size (p_threads (f_proc f)) = size (p_threads (s_proc c));
    R_dsz : size (f_data f) = size (p_threads (s_proc c));
    R_msz : size (f_thr f) = size (p_threads (s_proc c));
    R_core : forall t, tcore (thr_at (f_proc f) t) = tcore (thr_at (s_proc c) t);
    R_tok : forall t, tok (mic f t) (t_phase (thr_at (s_proc c) t));
    R_mok : mok (f_main f) c;
    R_lP : forall a, (f_pool f == Some a) = inP f a;
    R_lS : forall a, (f_static f == Some a) = inS f a;
    R_lT : forall t a, (nth None (f_data f) t == Some a) = inT f t a;
    R_P : relP f c;
    R_S : relS f c;
    R_T : forall t, relT f c t }.

(** ** What a step of [me] leaves alone *)
Record frame (f : fstate) (c : state) (f' : fstate) (c' : state) (me : actor) : Prop := MkFrame
  { F_thr : forall t, Some t != me -> mic f' t = mic f t;
    F_main : me != None -> f_main f' = f_main f;
    F_ctl : me != None -> c' = with_proc c (s_proc c');
    F_cfg : me != None -> p_config (s_proc c') = p_config (s_proc c);
    F_kind : forall t, t_opencl (thr_at (s_proc c') t) = t_opencl (thr_at (s_proc c) t);
    F_size : size (p_threads (s_proc c')) = size (p_threads (s_proc c));
    F_phase : forall t, Some t != me -> (if mic f t is MNone then false else true) ->
                t_phase (thr_at (s_proc c') t) = t_phase (thr_at (s_proc c) t) }.

Definition caseP f c f' c' me : Prop :=
  [/\ f_pool f' = f_pool f, poolr (f_proc f') = poolr (f_proc f), poolr (s_proc c') = poolr (s_proc c),
      ~~ inP f me & ~~ inP f' me] \/
  [/\ f_pool f = None \/ f_pool f = Some me, f_pool f' = (if inP f' me then Some me else None) & relP f' c'].
Definition caseS f c f' c' me : Prop :=
  [/\ f_static f' = f_static f, p_shared (f_proc f') = p_shared (f_proc f),
      p_shared (s_proc c') = p_shared (s_proc c), ~~ inS f me & ~~ inS f' me] \/
  [/\ f_static f = None \/ f_static f = Some me, f_static f' = (if inS f' me then Some me else None) & relS f' c'].
Definition caseT f c f' c' me t : Prop :=
  [/\ nth None (f_data f') t = nth None (f_data f) t,
      treg (thr_at (f_proc f') t) = treg (thr_at (f_proc f) t),
      treg (thr_at (s_proc c') t) = treg (thr_at (s_proc c) t), ~~ inT f t me & ~~ inT f' t me] \/
  [/\ nth None (f_data f) t = None \/ nth None (f_data f) t = Some me,
      nth None (f_data f') t = (if inT f' t me then Some me else None) & relT f' c' t].

Lemma ready_kinds ts ts' x l : (forall t, t_opencl (nth thread0 ts' t) = t_opencl (nth thread0 ts t)) ->
  foldl (flush_ready_step ts') x l = foldl (flush_ready_step ts) x l.
Proof.
move=> H; elim: l x => //= t l IH [idle [a b]]; rewrite IH; congr foldl.
by rewrite /flush_ready_step H.
Qed.

Lemma PM_frame n c pc' r : poolr pc' = poolr (s_proc c) ->
  (forall t, t_opencl (thr_at pc' t) = t_opencl (thr_at (s_proc c) t)) ->
  size (p_threads pc') = size (p_threads (s_proc c)) ->
  PM n c r -> PM n (with_proc c pc') r.
Proof.
move=> [E1 E2 E3 E4] Hk Hs.
case: n => [||bs|bs|i x o|x o||t|t|t|t|||||||||] //=; rewrite /PM /= /poolr E1 E2 E3 E4 ?Hs ?Hk //.
- by rewrite (ready_kinds _ _ Hk).
- by rewrite (ready_kinds _ _ Hk).
Qed.

Lemma PT_frame m b p p' r : poolr p' = poolr p -> PT m b p r -> PT m b p' r.
Proof. by move=> [E1 E2 E3 E4]; case: m => //= *; rewrite /poolr E1 E2 E3 E4. Qed.

Lemma R_next f c f' c' me : R f c -> frame f c f' c' me ->
  f_st f' = with_proc c' (f_proc f') ->
  p_config (f_proc f') = p_config (s_proc c') -> p_done (f_proc f') = p_done (s_proc c') ->
  size (p_threads (f_proc f')) = size (p_threads (s_proc c')) ->
  size (f_data f') = size (f_data f) -> size (f_thr f') = size (f_thr f) ->
  (forall t, tcore (thr_at (f_proc f') t) = tcore (thr_at (s_proc c') t)) ->
  (if me is Some t then tok (mic f' t) (t_phase (thr_at (s_proc c') t)) else mok (f_main f') c') ->
  caseP f c f' c' me -> caseS f c f' c' me -> (forall t, caseT f c f' c' me t) -> R f' c'.
Proof.
move=> HR HF Hst Hcf Hdn Hsz Hds Hms Hco Hme HP HS HT.
have Hpc : me != None -> s_pc (f_st f') = s_pc (f_st f).
  by move=> /(F_ctl HF) E; rewrite Hst (R_st HR) E.
have HinP a : a != me -> inP f' a = inP f a.
  case: a => [t|] Ha /=; first by rewrite (F_thr HF).
  by rewrite (F_main HF) // eq_sym.
have HinS a : a != me -> inS f' a = inS f a.
  case: a => [t|] Ha /=; first by rewrite (F_thr HF).
  by rewrite (F_main HF) // eq_sym.
have HinT t a : a != me -> inT f' t a = inT f t a.
  case: a => [t'|] Ha /=; first by rewrite (F_thr HF).
  by rewrite (F_main HF) ?Hpc // eq_sym.
have Hph t : Some t != me -> (if mic f t is MNone then false else true) ->
  t_phase (thr_at (s_proc c') t) = t_phase (thr_at (s_proc c) t) := @F_phase _ _ _ _ _ HF t.
split=> //.
- by rewrite Hds (R_dsz HR) (F_size HF).
- by rewrite Hms (R_msz HR) (F_size HF).
- move=> t; case: (eqVneq (Some t) me) => [E|Hne]; first by rewrite -E in Hme.
  by have := R_tok HR t; rewrite (F_thr HF) //; case E: (mic f t) => //=; rewrite Hph // E.
- case: me Hme HF {Hpc HinP HinS HinT Hph HP HS HT} => [t _|//] HF.
  rewrite (F_main HF) // (F_ctl HF) //; have := R_mok HR.
  case: (f_main f) => //= -[t' H1 H2]; exists t' => //; by rewrite (F_size HF).
- move=> a; case: HP => [[-> _ _ Hn Hn']|[Hf -> _]].
    case: (eqVneq a me) => [->|Hne]; last by rewrite HinP // (R_lP HR).
    by rewrite (R_lP HR) (negbTE Hn) (negbTE Hn').
  case: (eqVneq a me) => [->|Hne]; first by case: (inP f' me); rewrite ?eqxx.
  rewrite (HinP a) // -(R_lP HR); case: Hf => ->; case: (inP f' me) => //.
  + by rewrite (_ : Some me == Some a = false) // ; apply/eqP => -[E]; rewrite E eqxx in Hne.
  + by rewrite (_ : Some me == Some a = false) // ; apply/eqP => -[E]; rewrite E eqxx in Hne.
- move=> a; case: HS => [[-> _ _ Hn Hn']|[Hf -> _]].
    case: (eqVneq a me) => [->|Hne]; last by rewrite HinS // (R_lS HR).
    by rewrite (R_lS HR) (negbTE Hn) (negbTE Hn').
  case: (eqVneq a me) => [->|Hne]; first by case: (inS f' me); rewrite ?eqxx.
  rewrite (HinS a) // -(R_lS HR); case: Hf => ->; case: (inS f' me) => //.
  + by rewrite (_ : Some me == Some a = false) // ; apply/eqP => -[E]; rewrite E eqxx in Hne.
  + by rewrite (_ : Some me == Some a = false) // ; apply/eqP => -[E]; rewrite E eqxx in Hne.
- move=> t a; case: (HT t) => [[-> _ _ Hn Hn']|[Hf -> _]].
    case: (eqVneq a me) => [->|Hne]; last by rewrite HinT // (R_lT HR).
    by rewrite (R_lT HR) (negbTE Hn) (negbTE Hn').
  case: (eqVneq a me) => [->|Hne]; first by case: (inT f' t me); rewrite ?eqxx.
  rewrite (HinT t a) // -(R_lT HR); case: Hf => ->; case: (inT f' t me) => //.
  + by rewrite (_ : Some me == Some a = false) // ; apply/eqP => -[E]; rewrite E eqxx in Hne.
  + by rewrite (_ : Some me == Some a = false) // ; apply/eqP => -[E]; rewrite E eqxx in Hne.
- case: HP => [[E1 E2 E3 Hn Hn']|[]//].
  have := R_P HR; rewrite /relP E1 E2 E3.
  case E: (f_pool f) => [a|//]; have Ha : inP f a by rewrite -(R_lP HR) E.
  have Hne : a != me by apply/eqP => Ea; rewrite -Ea Ha in Hn.
  case: a Ha Hne {E} => [t|] Ha Hne.
    rewrite (F_thr HF) // Hph //; last by move: Ha => /=; case: (mic f t).
    exact: PT_frame.
  have Hm : me != None by rewrite eq_sym.
  rewrite (F_main HF) // (F_ctl HF) //; apply: PM_frame => //; [exact: F_kind HF | exact: F_size HF].
- case: HS => [[E1 E2 E3 Hn Hn']|[]//].
  have := R_S HR; rewrite /relS E1 E2 E3.
  case E: (f_static f) => [a|//]; have Ha : inS f a by rewrite -(R_lS HR) E.
  have Hne : a != me by apply/eqP => Ea; rewrite -Ea Ha in Hn.
  case: a Ha Hne {E} => [t|] Ha Hne.
    by rewrite (F_thr HF) // Hph //; move: Ha => /=; case: (mic f t).
  by rewrite (F_main HF) // eq_sym.
- move=> t; case: (HT t) => [[E1 E2 E3 Hn Hn']|[]//].
  have := R_T HR t; rewrite /relT E1 E2 E3.
  case E: (nth None (f_data f) t) => [a|//]; have Ha : inT f t a by rewrite -(R_lT HR) E.
  have Hne : a != me by apply/eqP => Ea; rewrite -Ea Ha in Hn.
  case: a Ha Hne {E} => [t'|] Ha Hne; first by rewrite (F_thr HF).
  have Hm : me != None by rewrite eq_sym.
  rewrite (F_main HF) //; case: (f_main f) => //= t0.
  by rewrite {1}(F_ctl HF) // (F_cfg HF).
Qed.

Lemma with_proc_id s : with_proc s (s_proc s) = s.
Proof. by case: s. Qed.

Lemma set_id (T : Type) (x0 : T) ts t : t < size ts -> set_nth x0 ts t (nth x0 ts t) = ts.
Proof. by elim: ts t => [|y ts IH] [|t] //= Ht; rewrite IH. Qed.

(** ** Steps of a thread of the pool *)
Section Thread.
Variables (c : state) (p : proc) (hp hs : option actor) (hd : seq (option actor)) (n : mmicro) (ms : seq tmicro) (t : nat).
Notation me := (Some t : actor).
Notation q := (s_proc c).
Notation m := (nth MNone ms t).
Hypothesis HR : R (FState (with_proc c p) hp hs hd n ms) c.
Hypothesis Ht : t < size (p_threads q).

Lemma thr_next p' hp' hs' hd' m' q' x y :
  p_config p' = p_config p -> p_config q' = p_config q -> p_done p' = p_done q' ->
  p_threads p' = set_nth thread0 (p_threads p) t x -> p_threads q' = set_nth thread0 (p_threads q) t y ->
  tcore x = tcore y -> t_opencl y = t_opencl (thr_at q t) -> tok m' (t_phase y) -> size hd' = size hd ->
  [/\ hp' = hp, poolr p' = poolr p, poolr q' = poolr q, ~~ tP m & ~~ tP m'] \/
  [/\ hp = None \/ hp = Some me, hp' = (if tP m' then Some me else None) &
      if tP m' then PT m' (work_block (t_phase y)) q' (poolr p') else poolr p' = poolr q'] ->
  [/\ hs' = hs, p_shared p' = p_shared p, p_shared q' = p_shared q, ~~ tS m & ~~ tS m'] \/
  [/\ hs = None \/ hs = Some me, hs' = (if tS m' then Some me else None) &
      if tS m' then ST m' (work_block (t_phase y)) (work_store contrib (t_phase y)) (p_shared q') (p_shared p')
      else p_shared p' = p_shared q'] ->
  (forall t', t' != t -> nth None hd' t' = nth None hd t') ->
  [/\ nth None hd' t = nth None hd t, treg x = treg (thr_at p t), treg y = treg (thr_at q t), ~~ tT m & ~~ tT m'] \/
  [/\ nth None hd t = None \/ nth None hd t = Some me, nth None hd' t = (if tT m' then Some me else None) &
      if tT m' then TT m' (treg y) (treg x) else treg x = treg y] ->
  R (FState (with_proc c p') hp' hs' hd' n (set_nth MNone ms t m')) (with_proc c q').
Proof.
move=> Hc1 Hc2 Hd Hx Hy Hxy Hk Htok Hds HP HS HD HT.
have Hsz : size (p_threads p) = size (p_threads q) := R_size HR.
have Hpt : t < size (p_threads p) by rewrite Hsz.
have Hms : t < size ms by rewrite (R_msz HR : size ms = _).
have Hpx t' : thr_at p' t' = if t' == t then x else thr_at p t' by rewrite /thr_at Hx nth_set_nth.
have Hqy t' : thr_at q' t' = if t' == t then y else thr_at q t' by rewrite /thr_at Hy nth_set_nth.
have Hm t' : nth MNone (set_nth MNone ms t m') t' = if t' == t then m' else nth MNone ms t' by rewrite nth_set_nth.
have Hsq : size (p_threads q') = size (p_threads q) by rewrite Hy size_set_nth; apply/maxn_idPr.
have Hsp : size (p_threads p') = size (p_threads p) by rewrite Hx size_set_nth; apply/maxn_idPr.
have Hne t' : Some t' != me -> (t' == t) = false by move=> H; apply: negbTE; apply: contraNneq H => ->.
apply: (R_next (me := me) HR) => //=.
- split=> //=.
  + by move=> t' /Hne E; rewrite /mic /= Hm E.
  + by move=> t'; rewrite Hqy; case: eqP => // ->.
  + by move=> t' /Hne E _; rewrite Hqy E.
- by rewrite Hc1 Hc2; exact: (R_conf HR).
- by rewrite Hsp Hsq.
- by rewrite size_set_nth; apply/maxn_idPr.
- move=> t'; rewrite /f_proc /= Hpx Hqy; case: eqP => // _; exact: (R_core HR t').
- by rewrite /mic /= Hm eqxx Hqy eqxx.
- case: HP => [[E1 E2 E3 H1 H2]|[H1 H2 H3]]; [left | right].
    by split=> //; rewrite /inP /mic /= Hm eqxx.
  split=> //; first by rewrite /inP /mic /= Hm eqxx.
  rewrite /relP /= H2; move: H3; case: (tP m') => // H3.
  by rewrite /mic /= Hm eqxx Hqy eqxx.
- case: HS => [[E1 E2 E3 H1 H2]|[H1 H2 H3]]; [left | right].
    by split=> //; rewrite /inS /mic /= Hm eqxx.
  split=> //; first by rewrite /inS /mic /= Hm eqxx.
  rewrite /relS /= H2; move: H3; case: (tS m') => // H3.
  by rewrite /mic /= Hm eqxx Hqy eqxx.
- move=> t'; case: (eqVneq t' t) => [->|Hn]; last first.
    left; rewrite /f_proc /= Hpx Hqy (negbTE Hn) HD //; split=> //; by rewrite eq_sym (negbTE Hn).
  case: HT => [[E1 E2 E3 H1 H2]|[H1 H2 H3]]; [left | right].
    split=> //=; rewrite ?/f_proc /= ?Hpx ?Hqy ?eqxx //; by rewrite /mic /= ?Hm ?eqxx.
  split=> //=; first by rewrite eqxx /mic /= Hm eqxx.
  rewrite /relT /= H2 /f_proc /= Hpx Hqy eqxx; move: H3; case: (tT m') => // H3.
  by rewrite /mic /= Hm eqxx.
Qed.

Lemma thr_stut p' hp' hs' hd' m' x :
  p_config p' = p_config p -> p_done p' = p_done p ->
  p_threads p' = set_nth thread0 (p_threads p) t x ->
  tcore x = tcore (thr_at p t) -> tok m' (t_phase (thr_at p t)) -> size hd' = size hd ->
  [/\ hp' = hp, poolr p' = poolr p, ~~ tP m & ~~ tP m'] \/
  [/\ hp = None \/ hp = Some me, hp' = (if tP m' then Some me else None) &
      if tP m' then PT m' (work_block (t_phase (thr_at p t))) q (poolr p') else poolr p' = poolr q] ->
  [/\ hs' = hs, p_shared p' = p_shared p, ~~ tS m & ~~ tS m'] \/
  [/\ hs = None \/ hs = Some me, hs' = (if tS m' then Some me else None) &
      if tS m' then ST m' (work_block (t_phase (thr_at p t))) (work_store contrib (t_phase (thr_at p t)))
                       (p_shared q) (p_shared p')
      else p_shared p' = p_shared q] ->
  (forall t', t' != t -> nth None hd' t' = nth None hd t') ->
  [/\ nth None hd' t = nth None hd t, treg x = treg (thr_at p t), ~~ tT m & ~~ tT m'] \/
  [/\ nth None hd t = None \/ nth None hd t = Some me, nth None hd' t = (if tT m' then Some me else None) &
      if tT m' then TT m' (treg (thr_at q t)) (treg x) else treg x = treg (thr_at q t)] ->
  R (FState (with_proc c p') hp' hs' hd' n (set_nth MNone ms t m')) c.
Proof.
move=> H1 H2 H3 H4 H5 H6 HP HS HD HT.
have [Ek Eph] : tcore (thr_at p t) = tcore (thr_at q t) := R_core HR t.
rewrite -[X in R _ X](with_proc_id c) -?Eph.
apply: (thr_next (x := x) (y := thr_at q t)) => //.
- by rewrite H2; exact: (R_done HR).
- by rewrite set_id.
- by rewrite H4 /tcore Ek Eph.
- by rewrite -Eph.
- by rewrite -Eph; case: HP => [[]|]; [left | right].
- by rewrite -Eph; case: HS => [[]|]; [left | right].
- by case: HT => [[]|]; [left | right].
Qed.

(** The mutexes as the thread sees them. *)
Lemma own_pool : tP m -> hp = Some me.
Proof. by move=> H; apply/eqP; rewrite (R_lP HR me : (hp == _) = _). Qed.
Lemma own_static : tS m -> hs = Some me.
Proof. by move=> H; apply/eqP; rewrite (R_lS HR me : (hs == _) = _). Qed.
Lemma own_data : tT m -> nth None hd t = Some me.
Proof. by move=> H; apply/eqP; rewrite (R_lT HR t me : (nth None hd t == _) = _) /= eqxx. Qed.
Lemma none_pool : m = MNone -> hp != Some me.
Proof. by move=> H; rewrite (R_lP HR me : (hp == _) = _) /= /mic /= H. Qed.
Lemma none_static : m = MNone -> hs != Some me.
Proof. by move=> H; rewrite (R_lS HR me : (hs == _) = _) /= /mic /= H. Qed.
Lemma none_data : m = MNone -> nth None hd t != Some me.
Proof. by move=> H; rewrite (R_lT HR t me : (nth None hd t == _) = _) /= /mic /= H eqxx. Qed.

Let HRP := R_P HR.
Let HRS := R_S HR.
Let HRT := R_T HR t.

Lemma size_data h : size (set_nth None hd t h) = size hd.
Proof. by rewrite size_set_nth; apply/maxn_idPr; rewrite (R_dsz HR : size hd = _). Qed.

Lemma other_data h t' : t' != t -> nth None (set_nth None hd t h) t' = nth None hd t'.
Proof. by move=> Hne; rewrite nth_set_nth /= (negbTE Hne). Qed.

Definition sim (f' : fstate) : Prop := R f' c \/ exists2 c', step contrib c (Step t) = Ok c' & R f' c'.

Lemma coarse_ok q' : thread_step contrib q t = Ok q' -> step contrib c (Step t) = Ok (with_proc c q').
Proof. by rewrite /step => ->. Qed.

Lemma thread_sim c1 : step contrib c (Step t) = Ok c1 ->
  exists2 f', fthread contrib (FState (with_proc c p) hp hs hd n ms) t = Ok f' & sim f'.
Proof.
have [Ek Eph] : tcore (thr_at p t) = tcore (thr_at q t) := R_core HR t.
have Hsz : size (p_threads p) = size (p_threads q) := R_size HR.
have Hpt : t < size (p_threads p) by rewrite Hsz.
have Htok : tok m (t_phase (thr_at p t)) by rewrite Eph; exact: (R_tok HR t).
have Hidp : p_threads p = set_nth thread0 (p_threads p) t (thr_at p t) by rewrite set_id.
have Hdone : p_done p = p_done q := R_done HR.
have Hms : m = MNone -> ms = set_nth MNone ms t MNone.
  by move=> E; rewrite -{2}E set_id // (R_msz HR : size ms = _).
have Hts : thread_step contrib q t =
  let thr := thr_at q t in
  let goto ph := upd q t (Thread (t_opencl thr) (t_queue thr) ph (t_shut thr)) in
    match t_phase thr with
    | TTest =>
        if t_shut thr then Ok (goto TExit)
        else if t_queue thr is [::] then Ok (goto TPreWait) else Ok (goto TPop)
    | TPreWait => Ok (goto TWait)
    | TPop =>
        if t_queue thr is (b, c) :: qq then
          Ok (upd q t (Thread (t_opencl thr) qq (TWork b c) (t_shut thr)))
        else Undef
    | TWork b (Some c) =>
        let p := goto (TFlushed b) in
        Ok (set_done (set_shared p (flush_to_static (p_shared p) (contrib c b) b).1)
                     (rcons (p_done p) (b, Some c)))
    | TWork _ None => Undef
    | TFlushed b => pool_finished (goto TTest) b
    | TWait | TExit => Ok q
    end by rewrite /thread_step Ht.
rewrite {1}/step => H1; have {H1} [q1 Hq1 _] := bind_Ok_inv H1.
rewrite /fthread /f_proc /= Hpt -/(thr_at p t).
case E: m Htok => [||sh|sh e||z|z||i||t'|||] Htok /=.
- (* no critical section *)
  move: Hq1; rewrite Hts /= -Eph; case Eh: (t_phase (thr_at p t)) => [||||b [d|//]|b|] Hq1.
  + have Hn := none_data E; rewrite /acquire; case Eo: (nth None hd t) => [a|].
      rewrite ifN; last by apply: contraNneq Hn => <-; rewrite Eo.
      by eexists; [reflexivity | left].
    eexists; first reflexivity; left.
    apply: (thr_stut (x := thr_at p t)) => //; rewrite ?size_data //.
    * by left; rewrite E.
    * by left; rewrite E.
    * exact: other_data.
    * right; split=> //; [by left | by rewrite nth_set_nth /= eqxx |].
      by move: HRT; rewrite /relT /= Eo.
  + eexists; first by rewrite /thread_step Hpt -/(thr_at p t) Eh /=; reflexivity.
    right; eexists; first by apply: coarse_ok; rewrite Hts /= -Eph Eh; reflexivity.
    rewrite /fset_proc /fset_st /= (Hms E).
    apply: (thr_next (x := Thread (t_opencl (thr_at p t)) _ _ _) (y := Thread (t_opencl (thr_at q t)) _ _ _)) => //=.
    * by rewrite /tcore /= Ek.
    * by left; rewrite E.
    * by left; rewrite E.
    * by left; rewrite E.
  + eexists; first by rewrite /thread_step Hpt -/(thr_at p t) Eh /=; reflexivity.
    by left.
  + have Hn := none_data E; rewrite /acquire; case Eo: (nth None hd t) => [a|].
      rewrite ifN; last by apply: contraNneq Hn => <-; rewrite Eo.
      by eexists; [reflexivity | left].
    eexists; first reflexivity; left.
    apply: (thr_stut (x := thr_at p t)) => //; rewrite ?size_data //.
    * by left; rewrite E.
    * by left; rewrite E.
    * exact: other_data.
    * right; split=> //; [by left | by rewrite nth_set_nth /= eqxx |].
      by move: HRT; rewrite /relT /= Eo.
  + have Hn := none_static E; rewrite /acquire; case Eo: hs => [a|].
      rewrite ifN; last by apply: contraNneq Hn => <-; rewrite Eo.
      by eexists; [reflexivity | left; rewrite -Eo].
    eexists; first reflexivity; left.
    apply: (thr_stut (x := thr_at p t)) => //.
    * by rewrite Eh; exists b, d.
    * by left; rewrite E.
    * right; split=> //; first by left.
      by move: HRS; rewrite /relS /= Eo.
    * by left; rewrite E.
  + have Hn := none_pool E; rewrite /acquire; case Eo: hp => [a|].
      rewrite ifN; last by apply: contraNneq Hn => <-; rewrite Eo.
      by eexists; [reflexivity | left; rewrite -Eo].
    eexists; first reflexivity; left.
    apply: (thr_stut (x := thr_at p t)) => //.
    * by rewrite Eh; exists b.
    * right; split=> //; first by left.
      by move: HRP; rewrite /relP /= Eo.
    * by left; rewrite E.
    * by left; rewrite E.
  + eexists; first by rewrite /thread_step Hpt -/(thr_at p t) Eh /=; reflexivity.
    by left.
- (* MTest0 *)
  have Hown : nth None hd t = Some me by apply: own_data; rewrite E.
  rewrite /owning Hown eqxx; eexists; first reflexivity; left.
  apply: (thr_stut (x := thr_at p t)) => //.
  + by left; rewrite E.
  + by left; rewrite E.
  + right; split=> //; first by right.
    by move: HRT; rewrite /relT /= Hown /mic /= E /= /f_proc /= => Ex; split=> //; case: Ex.
- (* MTest1 *)
  have Hown : nth None hd t = Some me by apply: own_data; rewrite E.
  rewrite /owning Hown eqxx; eexists; first reflexivity; left.
  apply: (thr_stut (x := thr_at p t)) => //.
  + by left; rewrite E.
  + by left; rewrite E.
  + right; split=> //; first by right.
    move: HRT; rewrite /relT /= Hown /mic /= E /= /f_proc /= => -[-> Ex].
    by split=> //; case: Ex => ->.
- (* MTest2 *)
  have Hown : nth None hd t = Some me by apply: own_data; rewrite E.
  rewrite /owning Hown eqxx; eexists; first reflexivity; right.
  move: HRT; rewrite /relT /= Hown /mic /= E /= /f_proc /= => -[Hs He [Eq Es]].
  set ph := if sh then _ else _.
  have Hstep : thread_step contrib q t = Ok (upd q t (Thread (t_opencl (thr_at q t)) (t_queue (thr_at q t)) ph (t_shut (thr_at q t)))).
    by rewrite Hts /= -Eph Htok -Hs /ph He; case: (sh) => //; case: (t_queue (thr_at q t)).
  eexists; first exact: (coarse_ok Hstep).
  apply: (thr_next (x := Thread (t_opencl (thr_at p t)) _ _ _) (y := Thread (t_opencl (thr_at q t)) _ _ _)) => //=; rewrite ?size_data //.
  + by rewrite /tcore /= Ek.
  + by left; rewrite E.
  + by left; rewrite E.
  + exact: other_data.
  + right; split=> //; [by right | by rewrite nth_set_nth /= eqxx | by rewrite /treg /= Eq Es].
- (* MPop0 *)
  have Hown : nth None hd t = Some me by apply: own_data; rewrite E.
  move: HRT; rewrite /relT /= Hown /mic /= E /= /f_proc /= => Ex; case: (Ex) => Eq Es.
  move: Hq1; rewrite Hts /= -Eph Htok /owning eqxx Eq; case Eu: (t_queue (thr_at q t)) => [|z l] // _.
  eexists; first reflexivity; left.
  apply: (thr_stut (x := thr_at p t)) => //.
  + by left; rewrite E.
  + by left; rewrite E.
  + by right; split=> //; [right | rewrite /= Eu].
- (* MPop1 *)
  have Hown : nth None hd t = Some me by apply: own_data; rewrite E.
  move: HRT; rewrite /relT /= Hown /mic /= E /= /f_proc /= => -[Hz Ex]; case: (Ex) => Eq Es.
  move: Hq1; rewrite Hts /= -Eph Htok /owning eqxx Eq; case Eu: (t_queue (thr_at q t)) => [|z' l] // _.
  eexists; first reflexivity; left.
  apply: (thr_stut (x := Thread (t_opencl (thr_at p t)) _ _ _)) => //.
  + by rewrite /tcore /= Htok.
  + by left; rewrite E.
  + by left; rewrite E.
  + right; split=> //; first by right.
    by move: Hz; rewrite Eu => -[<-]; exists l; rewrite /= ?Eu // /treg /= Es.
- (* MPop2 *)
  have Hown : nth None hd t = Some me by apply: own_data; rewrite E.
  move: HRT; rewrite /relT /= Hown /mic /= E /= /f_proc /= => -[l El [Eq Es]].
  case: z E Htok El => b d E Htok El; rewrite /owning eqxx; eexists; first reflexivity; right.
  eexists; first by apply: coarse_ok; rewrite Hts /= -Eph Htok El; reflexivity.
  apply: (thr_next (x := Thread (t_opencl (thr_at p t)) _ _ _) (y := Thread (t_opencl (thr_at q t)) _ _ _)) => //=; rewrite ?size_data //.
  + by rewrite /tcore /= Ek.
  + by left; rewrite E.
  + by left; rewrite E.
  + exact: other_data.
  + right; split=> //; [by right | by rewrite nth_set_nth /= eqxx | by rewrite /treg /= Eq Es].
- (* MFlush0 *)
  have Hown : hs = Some me by apply: own_static; rewrite E.
  rewrite /owning Hown eqxx /=; eexists; first reflexivity; left.
  move: HRS; rewrite /relS /= Hown /mic /= E /= /f_proc /= => Ex.
  apply: (thr_stut (x := thr_at p t)) => //.
  + by left; rewrite E.
  + right; split=> //; first by right.
    by rewrite /= take0 -Ex.
  + by left; rewrite E.
- (* MFlush1 *)
  have Hown : hs = Some me by apply: own_static; rewrite E.
  rewrite /owning Hown eqxx /=.
  move: HRS; rewrite /relS /= Hown /mic /= E /= /f_proc /= -Eph => -[Hi Ex].
  case: ltnP => Hlt.
    eexists; first reflexivity; left.
    apply: (thr_stut (x := thr_at p t)) => //.
    + by left; rewrite E.
    + right; split=> //; first by right.
      rewrite /= Ex /=; split=> //; rewrite (take_nth ([::], [::], 0)) //.
      by rewrite /merge_into -cats1 foldl_cat.
    + by left; rewrite E.
  move: Htok => [b [d Hb]]; rewrite Hb; eexists; first reflexivity; right.
  eexists; first by apply: coarse_ok; rewrite Hts /= -Eph Hb; reflexivity.
  apply: (thr_next (x := Thread (t_opencl (thr_at p t)) _ _ _) (y := Thread (t_opencl (thr_at q t)) _ _ _)) => //=.
  + by rewrite Hdone.
  + by rewrite /tcore /= Ek.
  + by left; rewrite E.
  + right; split=> //; first by right.
    by move: Hlt; rewrite Ex Hb /= => Hlt; rewrite take_oversize.
  + left; split=> //; rewrite ?E //.
- (* MFin0 *) 
  have Hown : hp = Some me by apply: own_pool; rewrite E.
  move: Htok => [b Hb]; rewrite Hb /owning Hown eqxx /=.
  have Ep : poolr p = poolr q by move: HRP; rewrite /relP /= Hown /mic /= E.
  have Eb : p_busy p = p_busy q by case: Ep.
  move: Hq1; rewrite Hts /= -Eph Hb /pool_finished /= -Eb; case Ef: (om_find _ _ _) => [t'|//] _.
  eexists; first reflexivity; left.
  apply: (thr_stut (x := thr_at p t)) => //.
  + by rewrite Hb; exists b.
  + right; split=> //; [by right | by rewrite /= Hb /= -Eb].
  + by left; rewrite E.
  + by left; rewrite E.
- (* MFin1 *)
  have Hown : hp = Some me by apply: own_pool; rewrite E.
  move: HRP; rewrite /relP /= Hown /mic /= E /= /f_proc /= -Eph => -[Ef [E1 E2 E3 E4]].
  rewrite /owning eqxx /=; eexists; first reflexivity; left.
  apply: (thr_stut (x := thr_at p t)) => //.
  + right; split=> //; [by right | exists t' => //].
    by rewrite /poolr /= E1 E2 E3 E4.
  + by left; rewrite E.
  + by left; rewrite E.
- (* MFin2 *)
  have Hown : hp = Some me by apply: own_pool; rewrite E.
  move: HRP; rewrite /relP /= Hown /mic /= E /= /f_proc /= -Eph => -[t' Ef [E1 E2 E3 E4]].
  rewrite /owning eqxx /=; eexists; first reflexivity; left.
  apply: (thr_stut (x := thr_at p t)) => //.
  + right; split=> //; [by right | exists t' => //].
    by rewrite /poolr /= E1 E2 E3 E4.
  + by left; rewrite E.
  + by left; rewrite E.
- (* MFin3 *)
  have Hown : hp = Some me by apply: own_pool; rewrite E.
  move: HRP; rewrite /relP /= Hown /mic /= E /= /f_proc /= -Eph => -[t' Ef [E1 E2 E3 E4]].
  rewrite /owning eqxx /=; eexists; first reflexivity; left.
  apply: (thr_stut (x := thr_at p t)) => //.
  + right; split=> //; [by right | exists t' => //].
    by rewrite /poolr /= E1 E2 E3 E4.
  + by left; rewrite E.
  + by left; rewrite E.
- (* MFin4 *)
  have Hown : hp = Some me by apply: own_pool; rewrite E.
  move: Htok => [b Hb].
  move: HRP; rewrite /relP /= Hown /mic /= E /= /f_proc /= -Eph Hb /= => -[t' Ef [E1 E2 E3 E4]].
  rewrite /owning eqxx /=; eexists; first reflexivity; right.
  eexists; first by apply: coarse_ok; rewrite Hts /= -Eph Hb /pool_finished /= Ef; reflexivity.
  apply: (thr_next (x := Thread (t_opencl (thr_at p t)) _ _ _) (y := Thread (t_opencl (thr_at q t)) _ _ _)) => //=.
  + by rewrite /tcore /= Ek.
  + right; split=> //; [by right | by rewrite /poolr /= E1 E2 E3 E4].
  + by left; rewrite E.
  + by left; rewrite E.
Qed.
End Thread.

(** ** Steps of the main thread *)
Section Main.
Variables (c : state) (p : proc) (hp hs : option actor) (hd : seq (option actor)) (n : mmicro) (ms : seq tmicro).
Notation me := (None : actor).
Notation q := (s_proc c).
Hypothesis HR : R (FState (with_proc c p) hp hs hd n ms) c.

Lemma main_next c' p' hp' hs' hd' n' :
  let q' := s_proc c' in
  p_config p' = p_config q' -> p_done p' = p_done q' ->
  size (p_threads p') = size (p_threads p) -> size (p_threads q') = size (p_threads q) ->
  (forall t, t_opencl (thr_at q' t) = t_opencl (thr_at q t)) ->
  (forall t, tcore (thr_at p' t) = tcore (thr_at q' t)) ->
  (forall t, (if nth MNone ms t is MNone then false else true) -> t_phase (thr_at q' t) = t_phase (thr_at q t)) ->
  mok n' c' -> size hd' = size hd ->
  [/\ hp' = hp, poolr p' = poolr p, poolr q' = poolr q, ~~ mP n & ~~ mP n'] \/
  [/\ hp = None \/ hp = Some me, hp' = (if mP n' then Some me else None) &
      if mP n' then PM n' c' (poolr p') else poolr p' = poolr q'] ->
  [/\ hs' = hs, p_shared p' = p_shared p, p_shared q' = p_shared q, ~~ mS n & ~~ mS n'] \/
  [/\ hs = None \/ hs = Some me, hs' = (if mS n' then Some me else None) &
      if mS n' then SM n' (p_shared q') (p_shared p') else p_shared p' = p_shared q'] ->
  (forall t,
    [/\ nth None hd' t = nth None hd t, treg (thr_at p' t) = treg (thr_at p t),
        treg (thr_at q' t) = treg (thr_at q t), mT n (s_pc c) != Some t & mT n' (s_pc c') != Some t] \/
    [/\ nth None hd t = None \/ nth None hd t = Some me,
        nth None hd' t = (if mT n' (s_pc c') == Some t then Some me else None) &
        if mT n' (s_pc c') == Some t then TM n' c' (treg (thr_at q' t)) (treg (thr_at p' t))
        else treg (thr_at p' t) = treg (thr_at q' t)]) ->
  R (FState (with_proc c' p') hp' hs' hd' n' ms) c'.
Proof.
move=> q' Hcf Hdn Hs1 Hs2 Hk Hco Hph Hmok Hds HP HS HT.
apply: (R_next (me := me) HR) => //=.
- by split=> //= t _; exact: Hph.
- by rewrite /f_proc /= Hs1 Hs2; exact: (R_size HR).
- case: HP => [[E1 E2 E3 H1 H2]|[H1 H2 H3]]; [by left | right].
  by split=> //; rewrite /relP /= H2; move: H3; case: (mP n').
- case: HS => [[E1 E2 E3 H1 H2]|[H1 H2 H3]]; [by left | right].
  by split=> //; rewrite /relS /= H2; move: H3; case: (mS n').
- move=> t; case: (HT t) => [[E1 E2 E3 H1 H2]|[H1 H2 H3]]; [by left | right].
  by split=> //; rewrite /relT /= H2; move: H3; case: ifP.
Qed.

(** A step that changes only what belongs to the main thread. *)
Lemma main_ctl c' : n = NNone -> s_proc c' = q -> R (FState (with_proc c' p) hp hs hd NNone ms) c'.
Proof.
move=> En Eq; apply: main_next => //; rewrite ?Eq ?En //.
- exact: (R_conf HR).
- exact: (R_done HR).
- exact: (R_core HR).
- by left.
- by left.
- by move=> t; left.
Qed.

(** A step within a critical section that leaves the threads alone. *)
Lemma main_stut p' hp' hs' n' :
  p_config p' = p_config p -> p_done p' = p_done p -> p_threads p' = p_threads p ->
  mT n (s_pc c) = None -> mT n' (s_pc c) = None -> mok n' c ->
  [/\ hp' = hp, poolr p' = poolr p, ~~ mP n & ~~ mP n'] \/
  [/\ hp = None \/ hp = Some me, hp' = (if mP n' then Some me else None) &
      if mP n' then PM n' c (poolr p') else poolr p' = poolr q] ->
  [/\ hs' = hs, p_shared p' = p_shared p, ~~ mS n & ~~ mS n'] \/
  [/\ hs = None \/ hs = Some me, hs' = (if mS n' then Some me else None) &
      if mS n' then SM n' (p_shared q) (p_shared p') else p_shared p' = p_shared q] ->
  R (FState (with_proc c p') hp' hs' hd n' ms) c.
Proof.
move=> H1 H2 H3 H4 H5 H6 HP HS; apply: main_next => //.
- by rewrite H1; exact: (R_conf HR).
- by rewrite H2; exact: (R_done HR).
- by rewrite H3.
- by move=> t; rewrite /thr_at H3; exact: (R_core HR t).
- by case: HP => [[]|]; [left | right].
- by case: HS => [[]|]; [left | right].
- by move=> t; left; rewrite H4 H5 /thr_at H3.
Qed.

Lemma mown_pool : mP n -> hp = Some me.
Proof. by move=> H; apply/eqP; rewrite (R_lP HR me : (hp == _) = _). Qed.
Lemma mown_static : mS n -> hs = Some me.
Proof. by move=> H; apply/eqP; rewrite (R_lS HR me : (hs == _) = _). Qed.
Lemma mown_data t : mT n (s_pc c) = Some t -> nth None hd t = Some me.
Proof. by move=> H; apply/eqP; rewrite (R_lT HR t me : (nth None hd t == _) = _) /= H. Qed.
Lemma mnone_pool : mP n = false -> hp != Some me.
Proof. by move=> H; rewrite (R_lP HR me : (hp == _) = _) /= H. Qed.
Lemma mnone_static : mS n = false -> hs != Some me.
Proof. by move=> H; rewrite (R_lS HR me : (hs == _) = _) /= H. Qed.
Lemma mnone_data t : mT n (s_pc c) != Some t -> nth None hd t != Some me.
Proof. by move=> H; rewrite (R_lT HR t me : (nth None hd t == _) = _) /= (negbTE H). Qed.

Let HRP := R_P HR.
Let HRS := R_S HR.
Let HRT := R_T HR.

Lemma notify_at p0 t t' : thr_at (notify p0 t) t' =
  let thr := thr_at p0 t' in
  if (t' == t) && (if t_phase thr is TWait then true else false)
  then Thread (t_opencl thr) (t_queue thr) TTest (t_shut thr) else thr.
Proof.
rewrite /notify -/(thr_at p0 t); case: eqP => [->|/eqP Hne] /=.
  case E: (t_phase (thr_at p0 t)) => //=.
  by rewrite /thr_at /= nth_set_nth /= eqxx.
case E: (t_phase (thr_at p0 t)) => //=.
by rewrite /thr_at /= nth_set_nth /= (negbTE Hne).
Qed.

Lemma notify_size p0 t : size (p_threads (notify p0 t)) = size (p_threads p0).
Proof.
rewrite /notify -/(thr_at p0 t); case E: (t_phase (thr_at p0 t)) => //=.
rewrite size_set_nth; apply/maxn_idPr; case: (ltnP t (size (p_threads p0))) => // H.
by move: E; rewrite /thr_at nth_default.
Qed.

Lemma notify_rest p0 t : [/\ p_config (notify p0 t) = p_config p0, p_done (notify p0 t) = p_done p0,
  poolr (notify p0 t) = poolr p0 & p_shared (notify p0 t) = p_shared p0].
Proof. by rewrite /notify; case: (t_phase _). Qed.

(** A notification, with a change of what belongs to the main thread; the positions of the main thread hold the same
    mutexes before and after. *)
Lemma main_notify c' n' t : s_proc c' = notify q t -> mok n' c' ->
  mP n' = mP n -> mS n' = mS n -> mT n (s_pc c) = None -> mT n' (s_pc c') = None ->
  (mP n -> poolr p = poolr q) -> (mP n -> forall s r, PM n' s r = (r = poolr (s_proc s))) ->
  (mS n = false) ->
  R (FState (with_proc c' (notify p t)) hp hs hd n' ms) c'.
Proof.
move=> Eq Hok EP ES ET ET' HP HP' HS.
have [P1 P2 P3 P4] := notify_rest p t; have [Q1 Q2 Q3 Q4] := notify_rest q t.
have Hc t' : tcore (thr_at p t') = tcore (thr_at q t') := R_core HR t'.
apply: main_next => //; rewrite ?Eq ?P1 ?Q1 ?P2 ?Q2 ?P3 ?Q3 ?P4 ?Q4 ?notify_size //.
- exact: (R_conf HR).
- exact: (R_done HR).
- by move=> t'; rewrite notify_at /=; case: ifP.
- move=> t'; rewrite !notify_at /=; have [E1 E2] := Hc t'; rewrite E2.
  by case: ifP => _; rewrite /tcore /= E1 ?E2.
- move=> t'; rewrite notify_at /=; case: ifP => // /andP[_ Hw] Hm; have := R_tok HR t'; rewrite /mic /=.
  by move: Hw; case: (t_phase (thr_at q t')) => // _ /tok_wait E; rewrite E in Hm.
- rewrite EP; case E: (mP n); last by left.
  right; have Hown := mown_pool E; split=> //; first by right.
  by rewrite HP' // Eq Q3 HP.
- by left; rewrite ES HS.
- move=> t'; left; rewrite ET ET'; split=> //; rewrite notify_at /=; by case: ifP.
Qed.

Lemma finished_with s p0 bs :
  foldM finished_block (with_proc s p0) bs = (s' <- foldM finished_block s bs ;; Ok (with_proc s' p0)).
Proof.
elim: bs s => //= b bs IH s; rewrite {1 3}/finished_block /=; case: (os_mem _ _ _) => //=.
by rewrite -IH.
Qed.

Lemma finished_pc s s' bs : foldM finished_block s bs = Ok s' -> s_pc s' = s_pc s /\ s_proc s' = s_proc s.
Proof.
elim: bs s => [|b bs IH] s /=; first by move=> [<-].
rewrite {1}/finished_block; case: (os_mem _ _ _) => //= /IH [-> ->] //.
Qed.

Lemma pool_assignE q0 b ocl : pool_assign q0 b ocl =
  if pick (p_idle q0) ocl is Some (t, idle) then
    if t < size (p_threads q0) then
      let thr := thr_at q0 t in
      if ocl != t_opencl thr then Term
      else
        let p := set_busy (set_idle q0 idle) (om_set block_lt (p_busy q0) b t) in
        Ok (upd p t (Thread (t_opencl thr) (rcons (t_queue thr) (b, p_config q0)) (t_phase thr) (t_shut thr)), t)
    else Undef
  else Undef.
Proof.
rewrite /pool_assign /pick; case: (p_idle q0) => // t0 idle.
case: ocl; case: ltnP => Ht; rewrite ?(vgetE thread0 Ht) ?(vget_oob Ht) //.
Qed.

Lemma upd_at p0 t x t' : thr_at (upd p0 t x) t' = if t' == t then x else thr_at p0 t'.
Proof. by rewrite /thr_at /upd /= nth_set_nth. Qed.

Lemma upd_size p0 t x : t < size (p_threads p0) -> size (p_threads (upd p0 t x)) = size (p_threads p0).
Proof. by move=> H; rewrite /= size_set_nth; apply/maxn_idPr. Qed.

Definition msim (save : bool) (f' : fstate) : Prop := R f' c \/ exists2 c', main_step c save = Ok c' & R f' c'.

Lemma main_sim save c1 : main_step c save = Ok c1 ->
  exists2 f', fmain (FState (with_proc c p) hp hs hd n ms) save = Ok f' & msim save f'.
Proof.
move=> H1.
have Hsz : size (p_threads p) = size (p_threads q) := R_size HR.
have Hmok : mok n c := R_mok HR.
have Hcf : p_config p = p_config q := R_conf HR.
have Hc t' : tcore (thr_at p t') = tcore (thr_at q t') := R_core HR t'.
rewrite /fmain /f_proc /=.
case E: n Hmok => [||bs|bs|i x o|x o||t|t|t|t||||r|r|r st|r st||] Hmok /=.
- (* no critical section *)
  have Hlp n' : mP n' -> mS n' = false -> mT n' (s_pc c) = None -> mok n' c ->
      (poolr p = poolr q -> PM n' c (poolr p)) ->
      exists2 f', acquire (FState (with_proc c p) hp hs hd NNone ms) hp None
        (FState (with_proc c p) (Some None) hs hd n' ms) = Ok f' & msim save f'.
    move=> Hn' HnS HnT Hok Hpm; have Hn : hp != Some me by apply: mnone_pool; rewrite E.
    rewrite /acquire; case Eo: hp => [a|].
      rewrite ifN; last by apply: contraNneq Hn => <-; rewrite Eo.
      by eexists; [reflexivity | left; move: HR; rewrite E Eo].
    eexists; first reflexivity; left; apply: main_stut => //; rewrite ?E ?HnS //; last by left.
    right; rewrite Hn'; split=> //; first by left.
    by apply: Hpm; move: HRP; rewrite /relP /= Eo.
  have Hctl c' : s_proc c' = q -> main_step c save = Ok c' ->
      exists2 f', Ok (FState (with_proc c' p) hp hs hd NNone ms) = Ok f' & msim save f'.
    move=> Eq Hs; eexists; first reflexivity; right; exists c' => //; exact: main_ctl.
  case Hpc: (s_pc c) => [|b|b|b|b|b|t b|k|k|k r st|k r|k|t|t|t|].
  + (* PNext *)
    move: H1; rewrite /main_step /= Hpc /=; case Epr: (prog c) => [|[d e|b|] cs] _.
    * apply: Hctl => //; by rewrite /main_step Hpc Epr.
    * by apply: (Hctl (goto (with_prog c cs) (PWait (AfterConfig d e)))) => //; rewrite /main_step Hpc Epr.
    * by apply: (Hctl (goto (with_prog c cs) (PDelay b))) => //; rewrite /main_step Hpc Epr.
    * by apply: (Hctl (goto (with_prog c cs) (PWait AfterDestroy))) => //; rewrite /main_step Hpc Epr.
  + (* PDelay *)
    rewrite /main_step /= Hpc.
    by apply: (Hctl (goto c (if save then PSave (AfterDelay b) else PContains b))) => //; rewrite /main_step Hpc.
  + (* PContains *)
    move: H1; rewrite /main_step /= Hpc /=; case Ef: (file_store c) => [[d r]|//] _.
    by apply: (Hctl (goto c (if os_mem block_lt r b then PNext else if nocl c == 0 then PFillFinished b else PHand b)))
      => //; rewrite /main_step Hpc Ef.
  + by apply: Hlp => //; left; exists b.
  + apply: Hlp => //; first by exists b.
    by move=> Ep; rewrite /= take0 /= Ep.
  + move: H1; rewrite /main_step Hpc negbK; case Hcnt: (_ && _) => // _.
    by apply: Hlp => //; split=> //; exists b.
  + (* PNotify *)
    rewrite /main_step /= Hpc /=; eexists; first reflexivity; right.
    eexists; first by rewrite /main_step Hpc; reflexivity.
    rewrite /fset_st /=; set c2 := (X in R _ X).
    by apply: (main_notify (c' := c2)) => //; rewrite ?E.
  + by apply: Hlp => //; right; exists k.
  + (* PSave *)
    case Ef: (file_store c) => [x|]; last first.
      rewrite /main_step /= Hpc /= Ef /=.
      by apply: (Hctl (goto c (PAfter k))) => //; rewrite /main_step Hpc Ef.
    have Hn : hs != Some me by apply: mnone_static; rewrite E.
    rewrite /acquire; case Eo: hs => [a|].
      rewrite ifN; last by apply: contraNneq Hn => <-; rewrite Eo.
      by eexists; [reflexivity | left; move: HR; rewrite E Eo].
    eexists; first reflexivity; left; apply: main_stut => //; rewrite ?E //.
    * by split; [exists k | rewrite Ef].
    * by left.
    * by right; split=> //; [left | move: HRS; rewrite /relS /= Eo].
  + rewrite /main_step /= Hpc /=.
    by apply: (Hctl (goto (with_files c (rcons (files c) (File (cur_dir c) st None))) (PWriteRecord k r))) => //;
      rewrite /main_step Hpc.
  + rewrite /main_step /= Hpc /=.
    by apply: (Hctl (goto (with_files c (complete_last (files c) r)) (PAfter k))) => //; rewrite /main_step Hpc.
  + (* PAfter *)
    rewrite /main_step /= Hpc /=; case: k Hpc => [b|d e|] Hpc /=.
    * by apply: (Hctl (goto c (PContains b))) => //; rewrite /main_step Hpc.
    * eexists; first reflexivity; right; eexists; first by rewrite /main_step Hpc; reflexivity.
      rewrite /fset_st /=; set c2 := (X in R _ X).
      by apply: (main_next (c' := c2) (p' := set_config p (Some e))) => //; rewrite ?E //;
        [exact: (R_done HR) | left | left | move=> t; left].
    * by apply: (Hctl (goto c (PShut 0))) => //; rewrite /main_step Hpc.
  + (* PShut *)
    rewrite Hsz; case: ltnP => Ht; last first.
      rewrite /main_step /= Hpc /= Hsz ltnNge Ht /=.
      by apply: (Hctl (goto c PDone)) => //; rewrite /main_step Hpc ltnNge Ht.
    have Hn : nth None hd t != Some me by apply: mnone_data; rewrite E.
    rewrite /acquire; case Eo: (nth None hd t) => [a|].
      rewrite ifN; last by apply: contraNneq Hn => <-; rewrite Eo.
      by eexists; [reflexivity | left; move: HR; rewrite E].
    eexists; first reflexivity; left; apply: (main_next (c' := c) (p' := p)) => //; rewrite ?E //; try (by left).
    * exact: (R_done HR).
    * by exists t.
    * by rewrite size_set_nth; apply/maxn_idPr; rewrite (R_dsz HR : size hd = _).
    * move=> t'; rewrite /= Hpc; case: (eqVneq t' t) => [->|Hne]; [right | left].
        split; [by left | by rewrite nth_set_nth /= eqxx /= eqxx |].
        by rewrite /= eqxx; move: (HRT t); rewrite /relT /= Eo.
      split=> //; first by rewrite nth_set_nth /= (negbTE Hne).
      by rewrite /=; apply: contraNneq Hne => -[->].
  + (* PShutNotify *)
    rewrite /main_step /= Hpc /=; eexists; first reflexivity; right.
    eexists; first by rewrite /main_step Hpc; reflexivity.
    rewrite /fset_st /=; set c2 := (X in R _ X).
    by apply: (main_notify (c' := c2)) => //; rewrite ?E.
  + (* PJoin *)
    rewrite /main_step /= Hpc /= -/(thr_at p t); have [_ ->] := Hc t.
    set c2 := if t_phase (thr_at q t) is TExit then goto c (PShut t.+1) else c.
    have -> : (if t_phase (thr_at q t) is TExit then goto (with_proc c p) (PShut t.+1) else with_proc c p) = with_proc c2 p.
      by rewrite /c2; case: (t_phase _).
    apply: Hctl; first by rewrite /c2; case: (t_phase _).
    by rewrite /main_step Hpc.
  + rewrite /main_step /= Hpc /=.
    by apply: (Hctl c) => //; rewrite /main_step Hpc.
- (* NFin0 *)
  have Hown : hp = Some me by apply: mown_pool; rewrite E.
  rewrite /owning Hown eqxx /=; eexists; first reflexivity; left.
  move: HRP; rewrite /relP /= Hown E /= /f_proc /= => Ep.
  apply: main_stut => //; rewrite ?E //.
  + by right; split; [right | | split=> //; case: Ep].
  + by left.
- (* NFin1 *)
  have Hown : hp = Some me by apply: mown_pool; rewrite E.
  rewrite /owning Hown eqxx /=; eexists; first reflexivity; left.
  move: HRP; rewrite /relP /= Hown E /= /f_proc /= => -[Eb [E1 E2 E3 E4]].
  apply: main_stut => //; rewrite ?E //.
  + by right; split; [right | | rewrite /= /poolr /= E1 E2 E3].
  + by left.
- (* NFin2 *)
  have Hown : hp = Some me by apply: mown_pool; rewrite E.
  move: HRP; rewrite /relP /= Hown E /= /f_proc /= => -[Eb [E1 E2 E3 E4]].
  rewrite /owning eqxx /= /after_finished finished_with /=.
  have Hfin s' X : foldM finished_block c bs = Ok s' ->
    R (FState (goto (with_proc s' p) X) None hs hd NNone ms) (goto (with_proc s' (set_finished q [::])) X).
    move=> Hs'; apply: (main_next (c' := goto (with_proc s' (set_finished q [::])) X)) => //=; rewrite ?E //.
    + exact: (R_done HR).
    + by right; split; [right | | rewrite /= /poolr /= E1 E2 E3 E4].
    + by left.
    + by move=> t; left.
  case: Hmok => [[b Hpc]|[k Hpc]]; move: H1; rewrite /main_step Hpc /flush_finished_blocks /= finished_with -Eb /=.
  + case Ef: (foldM finished_block c bs) => [s'| | |] //= _.
    have [Epc _] := finished_pc Ef; rewrite Epc Hpc.
    eexists; first reflexivity; right; rewrite /main_step Hpc /flush_finished_blocks /= finished_with -Eb /= Ef /=.
    by eexists; [reflexivity | exact: Hfin].
  + case Ef: (foldM finished_block c bs) => [s'| | |] //= _.
    have [Epc _] := finished_pc Ef; rewrite Epc Hpc.
    eexists; first reflexivity; right; rewrite /main_step Hpc /flush_finished_blocks /= finished_with -Eb /= Ef /=.
    by eexists; [reflexivity | exact: Hfin].
- (* NReady *)
  have Hown : hp = Some me by apply: mown_pool; rewrite E.
  move: HRP; rewrite /relP /= Hown E /= /f_proc /= => -[Hi Eco [E1 E2 E3 E4]].
  rewrite /owning eqxx /= E2; case: ltnP => Hlt; last first.
    eexists; first reflexivity; left.
    apply: main_stut => //; rewrite ?E //.
    + right; split=> //; first by right.
      by move: E1 Eco; rewrite take_oversize // /= /poolr /= E3 E4 => -> ->.
    + by left.
  have [Hk _] := Hc (nth 0 (p_ready q) i); rewrite -/(thr_at p _) Hk.
  have Htk : take i.+1 (p_ready q) = rcons (take i (p_ready q)) (nth 0 (p_ready q) i) by rewrite -take_nth.
  case: ifP => Hocl; (eexists; first reflexivity); left; apply: main_stut => //; rewrite ?E //; try (by left).
  + right; split=> //; first by right.
    rewrite /= Htk -cats1 foldl_cat /=; move: E1 Eco; case: (foldl _ _ _) => idle [a d] /= <- [-> ->].
    by rewrite /flush_ready_step -/(thr_at q _) Hocl /poolr /= E2 E3 E4.
  + right; split=> //; first by right.
    rewrite /= Htk -cats1 foldl_cat /=; move: E1 Eco; case: (foldl _ _ _) => idle [a d] /= <- [-> ->].
    by rewrite /flush_ready_step -/(thr_at q _) Hocl /poolr /= E2 E3 E4.
- (* NReadyEnd *)
  have Hown : hp = Some me by apply: mown_pool; rewrite E.
  move: HRP; rewrite /relP /= Hown E /= /f_proc /= => -[Eco [E1 E2 E3 E4]].
  rewrite /owning eqxx /=; eexists; first reflexivity; right.
  move: Hmok => [b Hpc]; rewrite /main_step Hpc /flush_ready; move: E1 Eco; case: (foldl _ _ _) => idle [a d] /= E1 [-> ->].
  eexists; first reflexivity; rewrite /fset_st /fset_main /= /after_ready /= Hpc.
  set X := if _ then _ else _.
  set c2 := (X in R _ X).
  apply: (main_next (c' := c2) (p' := p)) => //=; rewrite ?E //.
  + exact: (R_done HR).
  + by right; split; [right | | rewrite /= /poolr /= E1 E2 E3 E4].
  + by left.
  + by move=> t; left.
- (* NAssign0 *)
  have Hown : hp = Some me by apply: mown_pool; rewrite E.
  move: HRP; rewrite /relP /= Hown E /= /f_proc /= => -[E1 E2 E3 E4].
  move: (Hmok) => [[b Hpc] Hcnt]; move: H1; rewrite /main_step Hpc negbK Hcnt pool_assignE.
  rewrite /owning eqxx /= E1; case Ei: (p_idle q) => [|t0 l] // _.
  case Hocl: (nocl c != 0); (eexists; first reflexivity); left; apply: main_stut => //; rewrite ?E //;
    try (by left); (right; split=> //; first by right).
  + by exists l; rewrite ?Ei ?Hocl // /poolr /= E2 E3 E4.
  + by exists (rev (behead (rev (t0 :: l)))); rewrite ?Ei ?Hocl // /poolr /= E2 E3 E4.
- (* NAssign1 *)
  have Hown : hp = Some me by apply: mown_pool; rewrite E.
  move: HRP; rewrite /relP /= Hown E /= /f_proc /= => -[idle Ep [E1 E2 E3 E4]].
  move: (Hmok) => [[b Hpc] Hcnt]; move: H1; rewrite /main_step Hpc negbK Hcnt pool_assignE Ep.
  case: ltnP => // Ht /=; case Hk': (_ != t_opencl _) => //= _; move/negbFE/eqP: Hk' => Hk.
  have [Ek _] := Hc t.
  rewrite (vgetE thread0) ?Hsz // -/(thr_at p t) /= Ek -Hk eqxx /= /owning eqxx.
  eexists; first reflexivity; left; apply: main_stut => //; rewrite ?E //; try (by left).
  right; split=> //; first by right.
  exists idle; split=> //; by rewrite /poolr /= E1 E2 E3 E4.
- (* NAssign2 *)
  have Hown : hp = Some me by apply: mown_pool; rewrite E.
  move: HRP; rewrite /relP /= Hown E /= /f_proc /= => -[idle [Ep Ht Hk [E1 E2 E3 E4]]].
  have Hn : nth None hd t != Some me by apply: mnone_data; rewrite E.
  rewrite /acquire; case Eo: (nth None hd t) => [a|].
    rewrite ifN; last by apply: contraNneq Hn => <-; rewrite Eo.
    by eexists; [reflexivity | left; move: HR; rewrite E Hown].
  eexists; first reflexivity; left; apply: (main_next (c' := c) (p' := p)) => //; rewrite ?E //.
  + exact: (R_done HR).
  + by rewrite size_set_nth; apply/maxn_idPr; rewrite (R_dsz HR : size hd = _).
  + right; split=> //; first by right.
    by exists idle; split=> //; rewrite /poolr E1 E2 E3 E4.
  + by left.
  + move=> t'; case: (eqVneq t' t) => [->|Hne]; [right | left].
      split; [by left | by rewrite nth_set_nth /= eqxx /= eqxx |].
      by rewrite /= eqxx; move: (HRT t); rewrite /relT /= Eo.
    split=> //; first by rewrite nth_set_nth /= (negbTE Hne).
    by rewrite /=; apply: contraNneq Hne => -[->].
- (* NAssign3 *)
  have Hown : hp = Some me by apply: mown_pool; rewrite E.
  have Hown2 : nth None hd t = Some me by apply: mown_data; rewrite E.
  move: HRP; rewrite /relP /= Hown E /= /f_proc /= => -[idle [Ep Ht Hk [E1 E2 E3 E4]]].
  move: (HRT t); rewrite /relT /= Hown2 E /= /f_proc /= => -[Eq Es].
  have Htp : t < size (p_threads p) by rewrite Hsz.
  rewrite /owning ?Hown2 eqxx /=; eexists; first reflexivity; left.
  apply: (main_next (c' := c)) => //; rewrite ?E //.
  + exact: (R_done HR).
  + by rewrite upd_size.
  + move=> t'; rewrite upd_at -/(thr_at p t); case: eqP => [->|_]; last exact: Hc.
    by rewrite /tcore /= -/(tcore (thr_at p t)); exact: Hc.
  + right; split=> //; first by right.
    by exists idle; split=> //; rewrite /poolr /= E1 E2 E3 E4.
  + by left.
  + move=> t'; rewrite upd_at; case: (eqVneq t' t) => [->|Hne]; [right | left].
      split=> /=; [by right | by rewrite eqxx |].
      by rewrite eqxx /treg /= -/(thr_at p t) Eq Es Hcf.
    by split=> //=; apply: contraNneq Hne => -[->].
- (* NAssign4 *)
  have Hown : hp = Some me by apply: mown_pool; rewrite E.
  have Hown2 : nth None hd t = Some me by apply: mown_data; rewrite E.
  move: HRP; rewrite /relP /= Hown E /= /f_proc /= => -[idle [Ep Ht Hk [E1 E2 E3 E4]]].
  move: (HRT t); rewrite /relT /= Hown2 E /= /f_proc /= => -[Eq Es].
  have Htp : t < size (p_threads p) by rewrite Hsz.
  rewrite /owning ?Hown2 eqxx /=; eexists; first reflexivity; right.
  move: (Hmok) => [[b Hpc] Hcnt].
  eexists.
    rewrite /main_step Hpc negbK Hcnt pool_assignE Ep Ht /= {1}Hk eqxx /=; reflexivity.
  rewrite /fset_main /fset_st /=.
  set c2 := (X in R _ X); set s2 := after_push _ _.
  have -> : s2 = with_proc c2 p.
    by rewrite /s2 /c2 /after_push /hand_block /= Hpc; case: ifP.
  have Hq2 : s_proc c2 = upd (set_busy (set_idle q idle) (om_set block_lt (p_busy q) b t)) t
    (Thread (t_opencl (thr_at q t)) (rcons (t_queue (thr_at q t)) (b, p_config q)) (t_phase (thr_at q t)) (t_shut (thr_at q t))).
    by [].
  have Hpc2 : s_pc c2 = PNotify t b by [].
  move: Eq; rewrite /hand_block Hpc => Eq.
  apply: main_next => //; rewrite ?Hq2 ?upd_size // ?E //.
  + exact: (R_done HR).
  + move=> t'; rewrite upd_at; case: eqP => [->|//] //.
  + move=> t'; rewrite upd_at; case: eqP => [->|_]; last exact: Hc.
    by rewrite {2}/tcore /= -/(tcore (thr_at q t)); exact: Hc.
  + by move=> t'; rewrite upd_at; case: eqP => [->|//].
  + by exists t, b.
  + by rewrite size_set_nth; apply/maxn_idPr; rewrite (R_dsz HR : size hd = _).
  + right; split=> //; first by right.
    by rewrite /= /poolr /= E1 E2 E3 E4 /hand_block Hpc.
  + by left.
  + move=> t'; rewrite upd_at; case: (eqVneq t' t) => [->|Hne]; [right | left].
      by split=> /=; [right | rewrite nth_set_nth /= eqxx | rewrite /treg /= Eq Es].
    split=> //=; first by rewrite nth_set_nth /= (negbTE Hne).
    by apply: contraNneq Hne => -[->].
- (* NAssign5 *)
  have Hown : hp = Some me by apply: mown_pool; rewrite E.
  move: HRP; rewrite /relP /= Hown E /= /f_proc /= => Ep.
  move: Hmok => [t [b Hpc]]; rewrite /main_step /= Hpc /=; eexists; first reflexivity; right.
  eexists; first by rewrite /main_step Hpc; reflexivity.
  rewrite /fset_main /fset_st /=; set c2 := (X in R _ X).
  rewrite -Hown; apply: (main_notify (c' := c2)) => //; rewrite ?E //.
- (* NAssign6 *)
  have Hown : hp = Some me by apply: mown_pool; rewrite E.
  rewrite /owning Hown eqxx /=; eexists; first reflexivity; left.
  move: HRP; rewrite /relP /= Hown E /= /f_proc /= => Ep.
  apply: main_stut => //; rewrite ?E //.
  + by right; split; [right | | ].
  + by left.
- (* NGlob0 *)
  have Hown : hs = Some me by apply: mown_static; rewrite E.
  rewrite /owning Hown eqxx /=; eexists; first reflexivity; left.
  move: HRS; rewrite /relS /= Hown E /= /f_proc /= => Es.
  apply: main_stut => //; rewrite ?E //.
  + by left.
  + by right; split; [right | | rewrite /= Es].
- (* NGlob1 *)
  have Hown : hs = Some me by apply: mown_static; rewrite E.
  rewrite /owning Hown eqxx /=; eexists; first reflexivity; left.
  move: HRS; rewrite /relS /= Hown E /= /f_proc /= => -[Er Es].
  apply: main_stut => //; rewrite ?E //.
  + by left.
  + by right; split; [right | | rewrite /= Es].
- (* NGlob2 *)
  have Hown : hs = Some me by apply: mown_static; rewrite E.
  rewrite /owning Hown eqxx /=; eexists; first reflexivity; left.
  move: HRS; rewrite /relS /= Hown E /= /f_proc /= => -[Er Es].
  apply: main_stut => //; rewrite ?E //.
  + by left.
  + by right; split; [right | | rewrite /= Es].
- (* NGlob3 *)
  have Hown : hs = Some me by apply: mown_static; rewrite E.
  rewrite /owning Hown eqxx /=; eexists; first reflexivity; left.
  move: HRS; rewrite /relS /= Hown E /= /f_proc /= => -[Er Ew Es].
  apply: main_stut => //; rewrite ?E //.
  + by left.
  + by right; split; [right | | rewrite /= Es].
- (* NGlob4 *)
  have Hown : hs = Some me by apply: mown_static; rewrite E.
  rewrite /owning Hown eqxx /=; eexists; first reflexivity; right.
  move: HRS; rewrite /relS /= Hown E /= /f_proc /= => -[Er Ew Es].
  move: Hmok => [[k Hpc] Hfs].
  rewrite /main_step Hpc /fset_main /fset_st /=; case: (file_store c) Hfs => // x _.
  rewrite /flush_global /flush_static -Er -Ew; eexists; first reflexivity.
  set c2 := (X in R _ X).
  apply: (main_next (c' := c2) (p' := p)) => //=; rewrite ?E //.
  + exact: (R_done HR).
  + by left.
  + by right; split; [right | | rewrite Es].
  + by move=> t; left.
- (* NShut0 *)
  move: (Hmok) => [t Hpc Ht]; rewrite Hpc.
  have Hown2 : nth None hd t = Some me by apply: mown_data; rewrite E /= Hpc.
  move: (HRT t); rewrite /relT /= Hown2 E /= /f_proc /= => -[Eq Es].
  have Htp : t < size (p_threads p) by rewrite Hsz.
  rewrite /owning ?Hown2 eqxx /=; eexists; first reflexivity; left.
  apply: (main_next (c' := c)) => //; rewrite ?E //.
  + exact: (R_done HR).
  + by rewrite upd_size.
  + move=> t'; rewrite upd_at -/(thr_at p t); case: eqP => [->|_]; last exact: Hc.
    by rewrite {1}/tcore /= -/(tcore (thr_at p t)); exact: Hc.
  + by left.
  + by left.
  + move=> t'; rewrite upd_at /= Hpc; case: (eqVneq t' t) => [->|Hne]; [right | left].
      split=> /=; [by right | by rewrite eqxx |].
      by rewrite eqxx /treg /= -/(thr_at p t) Eq.
    by split=> //=; apply: contraNneq Hne => -[->].
- (* NShut1 *)
  move: (Hmok) => [t Hpc Ht]; rewrite Hpc.
  have Hown2 : nth None hd t = Some me by apply: mown_data; rewrite E /= Hpc.
  move: (HRT t); rewrite /relT /= Hown2 E /= /f_proc /= => -[Eq Es].
  have Htp : t < size (p_threads p) by rewrite Hsz.
  rewrite /owning ?Hown2 eqxx /=; eexists; first reflexivity; right.
  rewrite /main_step Hpc Ht; eexists; first reflexivity.
  rewrite /fset_main /fset_st /=; set c2 := (X in R _ X).
  have Hq2 : s_proc c2 = set_shutdown q t by [].
  apply: (main_next (c' := c2) (p' := p)) => //; rewrite ?Hq2 ?upd_size // ?E //.
  + exact: (R_done HR).
  + by move=> t'; rewrite upd_at -/(thr_at q t); case: eqP => [->|//].
  + move=> t'; rewrite upd_at -/(thr_at q t); case: eqP => [->|_]; last exact: Hc.
    by rewrite {2}/tcore /= -/(tcore (thr_at q t)); exact: Hc.
  + by move=> t'; rewrite upd_at -/(thr_at q t); case: eqP => [->|//].
  + by rewrite size_set_nth; apply/maxn_idPr; rewrite (R_dsz HR : size hd = _).
  + by left.
  + by left.
  + move=> t'; rewrite upd_at /= Hpc; case: (eqVneq t' t) => [->|Hne]; [right | left].
      split=> /=; [by right | by rewrite nth_set_nth /= eqxx |].
      by rewrite /treg /= -/(thr_at q t) Eq Es.
    split=> //=; first by rewrite nth_set_nth /= (negbTE Hne).
    by apply: contraNneq Hne => -[->].
Qed.
End Main.
End Simulation.
