(** Proofs about the BlockIterator model. *)
Set Warnings "-notation-overridden,-ambiguous-paths".
From mathcomp Require Import all_ssreflect zify.
From Verif Require Import Res ResFacts BlockIter BlockSpec Odometer.

Set Implicit Arguments.
Unset Strict Implicit.
Unset Printing Implicit Defensive.

Lemma in_boxP b v :
  reflect (size v = size b /\
           forall i, i < size b -> (nth (0,0) b i).1 <= nth 0 v i < (nth (0,0) b i).2)
          (in_box b v).
Proof.
rewrite /in_box; elim: b v => [|lu b IH] [|x v] /=; try by constructor; case.
  by constructor.
case: andP => [[H1 /IH[Hs H2]]|Hn]; constructor.
  by split; [rewrite Hs|case=> [|i] Hi //=; apply: H2].
case=> -[Hs] H; apply: Hn; split; first by have := H 0 isT.
by apply/IH; split=> // i Hi; apply: (H i.+1).
Qed.

(** ** initialize_blocks *)

Definition stepof (bs : smap (nat * nat * nat)) (i : nat) : nat :=
  if sm_find bs i is Some b then b.2 else 1.

Lemma init_fold blocks L uo bs p :
  sm_wf bs -> uniq (map snd L) -> 0 < p ->
  {in map snd L, forall ix, ix \notin sm_keys bs} ->
  (forall sz ix, (sz, ix) \in L -> 0 < sz /\ exists2 b, sm_find blocks ix = Some b & b.2 - b.1 = sz) ->
  exists bs' p',
    [/\ foldM (init_block_step blocks) (uo, bs, p) L = Ok (uo ++ map snd L, bs', p'),
        sm_wf bs', sm_keys bs' =i map snd L ++ sm_keys bs &
        [/\ 0 < p', (forall ix, ix \notin map snd L -> sm_find bs' ix = sm_find bs ix),
          (forall ix, ix \in map snd L -> exists l u st,
             [/\ sm_find blocks ix = Some (l, u), sm_find bs' ix = Some (l, u, st),
                 0 < st & st <= minn p (u - l)]) &
          p' * \prod_(ix <- map snd L) stepof bs' ix <= p]].
Proof.
elim: L uo bs p => [|[sz ix] L IH] uo bs p Hw /=.
  move=> _ Hp _ _; exists bs, p; rewrite cats0; split=> //; split=> //.
  by rewrite big_nil muln1.
move=> /andP[Hni Hu] Hp Hnk HL.
have [Hsz [[l u] Hb /= Hlu]] : 0 < sz /\ exists2 b, sm_find blocks ix = Some b & b.2 - b.1 = sz.
  by apply: HL; rewrite inE eqxx.
set st := if sz <= p then sz else p.
have Hst : 0 < st by rewrite /st; case: ifP.
have Hstp : st <= p by rewrite /st; case: ifP => // /negbT; rewrite -ltnNge => /ltnW.
have Hsts : st <= sz by rewrite /st; case: ifP => // /negbT; rewrite -ltnNge => /ltnW.
have -> : (st == 0) = false by case: (st) Hst.
rewrite /sm_at Hb /=.
have Hp' : 0 < p %/ st by rewrite divn_gt0.
have [||bs' [p' [Hf Hw' Hk' [Hp0 Hout Hin Hprod]]]] :=
  IH (rcons uo ix) (sm_set bs ix (l, u, st)) (p %/ st) (sm_wf_set _ _ Hw) Hu Hp'.
- move=> jx Hj; rewrite sm_keys_set // inE negb_or Hnk ?andbT; last by rewrite inE Hj orbT.
  by apply/eqP => E; rewrite -E Hj in Hni.
- by move=> s j Hs; apply: HL; rewrite inE Hs orbT.
exists bs', p'; split=> //.
- by rewrite Hf cat_rcons.
- by move=> k; rewrite Hk' mem_cat sm_keys_set // !inE mem_cat orbCA.
have Hfix : sm_find bs' ix = Some (l, u, st).
  by rewrite Hout // sm_find_set // eqxx.
split=> //.
- move=> jx; rewrite inE negb_or => /andP[/negbTE Hne Hj].
  by rewrite Hout // sm_find_set // Hne.
- move=> jx; rewrite inE => /orP[/eqP ->|Hj].
    by exists l, u, st; split=> //; lia.
  have [l' [u' [st' [H1 H2 H3 H4]]]] := Hin _ Hj.
  exists l', u', st'; split=> //.
  by move: H4 (leq_div p st); rewrite !leq_min; lia.
rewrite big_cons /stepof Hfix /= -/(stepof bs') mulnCA.
apply: leq_trans (leq_trunc_div p st); rewrite mulnC leq_mul2r Hprod orbT //.
Qed.

Lemma init_blocks_ok blocks psz : sm_wf blocks -> 0 < psz ->
  (forall ix l u, (ix, (l, u)) \in blocks -> l < u) ->
  exists uo bs,
    [/\ initialize_blocks blocks psz = Ok (uo, bs), sm_wf bs, perm_eq uo (sm_keys blocks),
        sm_keys bs =i sm_keys blocks &
        [/\ (forall ix l u, (ix, (l, u)) \in blocks -> exists st,
               [/\ sm_find bs ix = Some (l, u, st), 0 < st & st <= minn psz (u - l)]) &
            \prod_(ix <- uo) stepof bs ix <= psz]].
Proof.
move=> Hw Hp Hlu; rewrite /initialize_blocks /block_sizes.
have -> : mapM (fun kb : nat * (nat * nat) =>
          let: (ix, (lbd, ubd)) := kb in
          if ubd <= lbd then Term else Ok (ubd - lbd, ix)) blocks
   = Ok [seq (kb.2.2 - kb.2.1, kb.1) | kb <- blocks].
  apply: mapM_Ok => -[ix [l u]] /Hlu /=; rewrite ltnNge => /negbTE -> //.
rewrite /=; set L := sort _ _.
have HLm : perm_eq L [seq (kb.2.2 - kb.2.1, kb.1) | kb <- blocks] by rewrite /L perm_sort.
have HL2 : perm_eq (map snd L) (sm_keys blocks).
  have := perm_map snd HLm; rewrite -map_comp.
  by rewrite (eq_map (_ : snd \o (fun kb : nat * (nat * nat) => (kb.2.2 - kb.2.1, kb.1)) =1 fst)).
have HuL : uniq (map snd L) by rewrite (perm_uniq HL2) sm_wf_uniq.
have [||bs [p' [-> Hw' Hk [Hp0 _ Hin Hprod]]]] := @init_fold blocks L [::] [::] psz isT HuL Hp.
- by [].
- move=> sz ix; rewrite (perm_mem HLm) => /mapP[[ix' [l u]] Hb [-> ->]] /=.
  split; first by have := Hlu _ _ _ Hb; lia.
  by exists (l, u) => //; apply: sm_find_In => //; apply: sm_wf_uniq.
exists (map snd L), bs; split=> //.
- by move=> k; rewrite Hk cats0 (perm_mem HL2).
split.
- move=> ix l u Hb.
  have Hix : ix \in map snd L by rewrite (perm_mem HL2); apply/mapP; exists (ix, (l, u)).
  have [l' [u' [st [H1 H2 H3 H4]]]] := Hin _ Hix.
  move: H1; rewrite (sm_find_In (sm_wf_uniq Hw) Hb) => -[El Eu]; subst l' u'.
  by exists st.
apply: leq_trans Hprod.
move: Hp0.
by case: p' => // n _; rewrite mulSn leq_addr.
Qed.

(** ** The digits of the iterator *)

Section Digits.
Variable W : nat.
Variables (bs : smap (nat * nat * nat)) (sets : set_arg) (deps : dep_arg).

Definition blkvals (l u st : nat) : seq nat :=
  [seq l + k * st | k <- iota 0 ((u - l).-1 %/ st).+1].

Definition dvals (ix : nat) (e : nat -> nat) : seq nat :=
  if sm_find bs ix is Some (l, u, st) then blkvals l u st
  else if sm_find sets ix is Some s then iota 0 (size s)
  else if sm_find deps ix is Some (jx, m) then iota 0 (size (choices m (e jx)))
  else [::].

Definition dnxt (ix : nat) (e : nat -> nat) (x : nat) : option nat :=
  if sm_find bs ix is Some (l, u, st) then
    let y := (x + st) %% W in if u <= y then None else Some y
  else if sm_find sets ix is Some s then
    let y := x.+1 %% W in if size s <= y then None else Some y
  else if sm_find deps ix is Some (jx, m) then
    let y := x.+1 %% W in if size (choices m (e jx)) <= y then None else Some y
  else None.

Definition dfirst (ix : nat) : nat := if sm_find bs ix is Some b then b.1.1 else 0.

Lemma dvals_uniq ix e : (forall l u st, sm_find bs ix = Some (l, u, st) -> 0 < st) ->
  uniq (dvals ix e).
Proof.
rewrite /dvals => H; case: (sm_find bs ix) H => [[[l u] st] H|_].
  rewrite map_inj_uniq ?iota_uniq // => x y Hxy.
  have := H _ _ _ erefl.
  by move: Hxy => /addnI /eqP; rewrite eqn_mul2r => /orP[/eqP -> //|/eqP ->].
case: (sm_find sets ix) => [s|]; first exact: iota_uniq.
by case: (sm_find deps ix) => [[jx m]|] //; apply: iota_uniq.
Qed.

Lemma chain_iota (f : nat -> option nat) a n :
  (forall x, a <= x < a + n -> f x = if x.+1 < a + n then Some x.+1 else None) ->
  chain_to f (iota a n) None.
Proof.
elim: n a => [|n IH] a //= H; split.
  rewrite H; last by lia.
  case: n {IH H} => [|n] /=; first by rewrite addn1 ltnn.
  by have -> : a.+1 < a + n.+2 by lia.
apply: IH => x Hx; rewrite H; last by lia.
by rewrite addSnnS.
Qed.

Lemma chain_to_map T U (f : T -> option T) (g : U -> option U) (h : T -> U) l :
  (forall x, g (h x) = omap h (f x)) -> chain_to f l None -> chain_to g (map h l) None.
Proof.
move=> Hg; elim: l => [|x l IH] //= [Hx Hl]; split; last exact: IH.
by rewrite Hg Hx; case: l {IH Hx Hl}.
Qed.

Lemma good_block ix e l u st : sm_find bs ix = Some (l, u, st) ->
  l < u -> 0 < st -> u + st <= W -> good dvals dnxt dfirst ix e.
Proof.
move=> Hf Hlu Hst HW; rewrite /good /dvals /dnxt /dfirst Hf /=; split; last by rewrite mul0n addn0.
rewrite /blkvals.
set n := (u - l).-1 %/ st.
have Hn : n * st <= (u - l).-1 by exact: leq_trunc_div.
have Hn' : (u - l).-1 < n.+1 * st by rewrite /n ltn_ceil.
have : forall k, l + k * st < u <-> k <= n.
  move=> k; split=> H.
    rewrite leqNgt; apply/negP => Hk.
    have : n.+1 * st <= k * st by rewrite leq_mul2r Hk orbT.
    by lia.
  have : k * st <= n * st by rewrite leq_mul2r H orbT.
  by lia.
move: {Hn Hn'} n => n Hkn.
have : forall a m, a + m = n.+1 ->
  chain_to (fun x => let y := (x + st) %% W in if u <= y then None else Some y)
     [seq l + k * st | k <- iota a m] None.
  move=> a m; elim: m a => [|m IH] a //= Ham; split; last by apply: IH; lia.
  have Ha : l + a * st < u by apply/Hkn; lia.
  have -> : l + a * st + st = l + a.+1 * st by rewrite mulSn; lia.
  have HlW : l + a.+1 * st < W by rewrite mulSn; lia.
  rewrite modn_small //.
  case: m {IH} Ham => [|m] Ham /=.
    case: leqP => // Hlt; suff : a.+1 <= n by lia.
    by apply/Hkn.
  case: leqP => // Hge; have : a.+1 <= n by lia.
  by move/Hkn; lia.
by move=> H; exact: (H 0 n.+1 (add0n _)).
Qed.

Lemma chain_iota0 n : n < W ->
  chain_to (fun x => let y := x.+1 %% W in if n <= y then None else Some y) (iota 0 n) None.
Proof.
move=> HnW; apply: chain_iota => x; rewrite add0n => /andP[_ Hx].
rewrite /= modn_small; last by lia.
by rewrite leqNgt; case: ltnP.
Qed.

Lemma good_set ix e s : sm_find bs ix = None -> sm_find sets ix = Some s ->
  values_ok W s -> good dvals dnxt dfirst ix e.
Proof.
move=> H1 H2 /and4P[H3 _ H4 _]; rewrite /good /dvals /dnxt /dfirst H1 H2; split.
  exact: chain_iota0.
by case: s H3 {H2 H4}.
Qed.

Lemma good_dep ix e jx m c : sm_find bs ix = None -> sm_find sets ix = None ->
  sm_find deps ix = Some (jx, m) -> sm_find m (e jx) = Some c -> values_ok W c ->
  good dvals dnxt dfirst ix e.
Proof.
move=> H1 H2 H3 H4 /and4P[H5 _ H6 _]; rewrite /good /dvals /dnxt /dfirst H1 H2 H3 /choices H4; split.
  exact: chain_iota0.
by case: c H5 {H4 H6}.
Qed.

Lemma mem_blkvals l u st x : 0 < st -> l < u ->
  reflect (exists2 k, x = l + k * st & x < u) (x \in blkvals l u st).
Proof.
move=> Hst Hlu; apply: (iffP mapP) => [[k]|[k Hx Hxu]].
  rewrite mem_iota add0n ltnS leq_divRL // => /andP[_ Hk] ->.
  by exists k => //; lia.
exists k => //; rewrite mem_iota add0n ltnS leq_divRL //; lia.
Qed.

(** The model's step functions are the generic odometer step. *)
Let gst := gstep dnxt dfirst.

Lemma step_blocksE order pos : order != [::] ->
  all (fun ix => ix < size pos) order -> all (fun ix => ix \in sm_keys bs) order ->
  step_blocks W bs order pos = Ok (gst order pos).
Proof.
elim: order pos => [|ix rest IH] //= pos _ /andP[Hix Hr] /andP[Hk Hkr].
rewrite /sm_at /gst /= /dnxt /dfirst; move: Hk; rewrite -sm_find_keys.
case E: (sm_find bs ix) => [[[l u] st]|] //= _.
rewrite (vgetE 0 Hix) /=; case: leqP => Hu.
  rewrite (vsetE 0) //=.
  case: rest IH Hr Hkr => [|jx rest] IH Hr Hkr //.
  apply: IH => //; apply: sub_all Hr => j Hj.
  by rewrite size_set_nth; lia.
by rewrite (vsetE 0).
Qed.

Lemma step_setsE it order pos : bi_sets it = sets -> bi_blocks it = bs ->
  order != [::] ->
  all (fun ix => ix < size pos) (order ++ bi_uo_blocks it) ->
  all (fun ix => (ix \notin sm_keys bs) && (ix \in sm_keys sets)) order ->
  all (fun ix => ix \in sm_keys bs) (bi_uo_blocks it) ->
  step_sets W it order pos = Ok (gst (order ++ bi_uo_blocks it) pos).
Proof.
move=> Es Eb; elim: order pos => [|ix rest IH] //= pos _ /andP[Hix Hr] /andP[/andP[Hnk Hk] Hkr] Hkb.
rewrite /sm_at /gst /= /dnxt /dfirst Es (sm_find_None Hnk); move: Hk; rewrite -sm_find_keys.
case E: (sm_find sets ix) => [s|] //= _.
rewrite (vgetE 0 Hix) /=; case: leqP => Hu; last by rewrite (vsetE 0).
rewrite (vsetE 0) //=.
have Hs : size (set_nth 0 pos ix 0) = size pos by rewrite size_set_nth; apply/maxn_idPr.
case: rest IH Hr Hkr => [|jx rest] IH Hr Hkr /=.
  case Eu: (bi_uo_blocks it) Hr Hkb => [|kx uo] Hr Hkb; first by [].
  by rewrite Eb (@step_blocksE (kx :: uo)) /= ?Hs.
by apply: IH; rewrite ?Hs.
Qed.

Lemma step_depsE it order pos : bi_deps it = deps -> bi_sets it = sets -> bi_blocks it = bs ->
  order != [::] -> uniq order ->
  all (fun ix => ix < size pos) (order ++ bi_uo_sets it ++ bi_uo_blocks it) ->
  all (fun ix => [&& ix \notin sm_keys bs, ix \notin sm_keys sets & ix \in sm_keys deps]) order ->
  (forall ix jx m, ix \in order -> sm_find deps ix = Some (jx, m) -> jx < size pos /\ jx != ix) ->
  all (fun ix => (ix \notin sm_keys bs) && (ix \in sm_keys sets)) (bi_uo_sets it) ->
  all (fun ix => ix \in sm_keys bs) (bi_uo_blocks it) ->
  step_deps W it order pos = Ok (gst (order ++ bi_uo_sets it ++ bi_uo_blocks it) pos).
Proof.
move=> Ed Es Eb.
elim: order pos => [|ix rest IH] //= pos _ /andP[Hni Hu] /andP[Hix Hr] /andP[/and3P[Hnb Hns Hk] Hkr] Hj Hks Hkb.
rewrite /sm_at /gst /= /dnxt /dfirst Ed (sm_find_None Hnb) (sm_find_None Hns).
move: Hk; rewrite -sm_find_keys.
case E: (sm_find deps ix) => [[jx m]|] //= _.
have [Hjs Hji] : jx < size pos /\ jx != ix by apply: (Hj ix jx m) => //; rewrite inE eqxx.
rewrite (vgetE 0 Hix) /= (vsetE 0) //=.
have Hs : forall y, size (set_nth 0 pos ix y) = size pos.
  by move=> y; rewrite size_set_nth; apply/maxn_idPr.
rewrite (vgetE 0) ?Hs //= nth_set_nth /= (negbTE Hji).
case: leqP => Hle //.
rewrite (vsetE 0) ?Hs //= set_set_nth eqxx.
case: rest IH Hu Hni Hr Hkr Hj => [|kx rest] IH Hu Hni Hr Hkr Hj /=; last first.
  apply: IH => //; rewrite ?Hs //.
  by move=> i j mm Hi Hf; apply: (Hj i j mm) => //; rewrite inE Hi orbT.
case Eu: (bi_uo_sets it) Hr Hks => [|kx uo] Hr Hks; rewrite ?cat0s in Hr *.
  case Ev: (bi_uo_blocks it) Hr Hkb => [|kx uo] Hr Hkb; first by [].
  by rewrite Eb (@step_blocksE (kx :: uo)) /= ?Hs.
by rewrite step_setsE // Hs.
Qed.

End Digits.

Lemma closed_cat_indep vals nxt l1 l2 :
  (forall ix, ix \in l1 -> forall e e' : nat -> nat, {in l2, e =1 e'} ->
     vals ix e = vals ix e' /\ nxt ix e =1 nxt ix e') ->
  closed vals nxt l2 -> closed vals nxt (l1 ++ l2).
Proof.
elim: l1 => [|ix l1 IH] //= H Hc; split; last first.
  by apply: IH => // jx Hj; apply: H; rewrite inE Hj orbT.
move=> e e' He; apply: H; first by rewrite inE eqxx.
by move=> j Hj; apply: He; rewrite mem_cat Hj orbT.
Qed.

Lemma all_good_suffix vals nxt first l p0 :
  (forall a ix r, l = a ++ ix :: r -> forall p, p \in penum vals r p0 ->
     good vals nxt first ix (nth 0 p)) ->
  all_good vals nxt first l p0.
Proof.
elim: l => [|ix l IH] //= H; split; first by apply: (H [::]).
by apply: IH => a jx r E; apply: (H (ix :: a)); rewrite E.
Qed.

Lemma closed_suffix vals nxt a b : closed vals nxt (a ++ b) -> closed vals nxt b.
Proof. by elim: a => [|x a IH] //= [_ /IH]. Qed.

Section Main.
Variables (W len : nat) (blocks : blk_arg) (psz : nat) (sets : set_arg) (deps : dep_arg).
Hypothesis Hok : args_ok W len blocks psz sets deps.
Variables (uo : seq nat) (bs : smap (nat * nat * nat)).
Hypothesis Hbw : sm_wf bs.
Hypothesis Huo : perm_eq uo (sm_keys blocks).
Hypothesis Hbk : sm_keys bs =i sm_keys blocks.
Hypothesis Hbf : forall ix l u, (ix, (l, u)) \in blocks -> exists st,
  [/\ sm_find bs ix = Some (l, u, st), 0 < st & st <= minn psz (u - l)].
Hypothesis Hprod : \prod_(ix <- uo) stepof bs ix <= psz.

Let order := sm_keys deps ++ sm_keys sets ++ uo.
Let vals := dvals bs sets deps.
Let nxt := dnxt W bs sets deps.
Let first := dfirst bs.

Lemma order_perm : perm_eq order (iota 0 len).
Proof.
case: Hok => _ Hp _ _ _; rewrite -(permPr Hp) /order.
rewrite catA perm_catC; apply: perm_cat => //; by rewrite perm_catC.
Qed.

Lemma order_mem i : (i \in order) = (i < len).
Proof. by rewrite (perm_mem order_perm) mem_iota. Qed.

Lemma order_uniq : uniq order.
Proof. by rewrite (perm_uniq order_perm) iota_uniq. Qed.

Lemma keys_disj : uniq (sm_keys deps ++ sm_keys sets ++ sm_keys blocks).
Proof.
rewrite (perm_uniq (_ : perm_eq _ order)) ?order_uniq // /order.
by rewrite !perm_cat2l perm_sym.
Qed.

Lemma keys_disj3 :
  [/\ {in sm_keys deps, forall i, i \notin sm_keys sets},
      {in sm_keys deps, forall i, i \notin sm_keys blocks} &
      {in sm_keys sets, forall i, i \notin sm_keys blocks}].
Proof.
move: keys_disj; rewrite cat_uniq => /and3P[_ /hasPn H1].
rewrite cat_uniq => /and3P[_ /hasPn H2 _]; split.
- move=> i Hi; apply/negP => Hs; have := H1 i.
  by rewrite mem_cat Hs => /(_ isT); rewrite /= Hi.
- move=> i Hi; apply/negP => Hs; have := H1 i.
  by rewrite mem_cat Hs orbT => /(_ isT); rewrite /= Hi.
- by move=> i Hi; apply/negP => Hs; have := H2 i Hs; rewrite /= Hi.
Qed.

Lemma find_bs ix b : sm_find bs ix = Some b ->
  exists l u st, [/\ b = (l, u, st), (ix, (l, u)) \in blocks, l < u, 0 < st &
    [/\ st <= minn psz (u - l), u + st <= W & stepof bs ix = st]].
Proof.
move=> Hf; have : ix \in sm_keys bs by rewrite -sm_find_keys Hf.
rewrite Hbk => /mapP[[ix' [l u]] Hin /= E]; subst ix'.
have [st [H1 H2 H3]] := Hbf Hin.
move: H1; rewrite Hf => -[E]; subst b.
have [_ _ _ /(_ _ _ _ Hin)[Hlu HW] _] := Hok.
exists l, u, st; split=> //; split=> //; first by lia.
by rewrite /stepof Hf.
Qed.

Lemma find_sets ix s : sm_find sets ix = Some s ->
  [/\ sm_find bs ix = None, ix \in sm_keys sets & values_ok W s].
Proof.
move=> Hf; have Hk : ix \in sm_keys sets by rewrite -sm_find_keys Hf.
have [_ _ Hd] := keys_disj3.
split=> //; first by rewrite sm_find_None // Hbk Hd.
have [_ _ _ _ [H _]] := Hok.
exact: H (sm_find_mem Hf).
Qed.

(** Range of the raw digit of an index a dependent set may be coupled to. *)
Definition raw_ok (jx k : nat) : Prop :=
  (exists2 s, sm_find sets jx = Some s & k < size s) \/
  (exists l u, [/\ psz = 1, sm_find bs jx = Some (l, u, 1) & l <= k < u]).

Lemma find_deps ix jx m : sm_find deps ix = Some (jx, m) ->
  [/\ sm_find bs ix = None, sm_find sets ix = None, ix \in sm_keys deps,
      jx \in sm_keys sets ++ uo &
      forall k, raw_ok jx k -> exists2 c, sm_find m k = Some c & values_ok W c].
Proof.
move=> Hf; have Hk : ix \in sm_keys deps by rewrite -sm_find_keys Hf.
have [Hd1 Hd2 Hd3] := keys_disj3.
have [_ _ _ _ [_ /(_ _ _ _ (sm_find_mem Hf)) H]] := Hok.
have [[Hwb Hws _] _ _ _ _] := Hok.
split=> //.
- by rewrite sm_find_None // Hbk Hd2.
- by rewrite sm_find_None // Hd1.
- rewrite mem_cat (perm_mem Huo).
  case: H => [[s Hs _]|[_ [l [u [Hb _]]]]]; apply/orP; [left|right]; apply/mapP.
    by exists (jx, s).
  by exists (jx, (l, u)).
- move=> k [[s Hs Hks]|[l [u [Hp Hb Hlu]]]].
    case: H => [[s' Hs' Hc]|[_ [l [u [Hb _]]]]].
      by apply: Hc; move: Hs; rewrite (sm_find_In (sm_wf_uniq Hws) Hs') => -[->].
    have Hjs : jx \in sm_keys sets by rewrite -sm_find_keys Hs.
    by case/negP: (Hd3 _ Hjs); apply/mapP; exists (jx, (l, u)).
  have [l' [u' [st [[El Eu Est] Hin _ _ _]]]] := find_bs Hb; subst l' u' st.
  case: H => [[s' Hs' Hc]|[_ [l' [u' [Hb' Hc]]]]].
    have Hjs : jx \in sm_keys sets by apply/mapP; exists (jx, s').
    by case/negP: (Hd3 _ Hjs); apply/mapP; exists (jx, (l, u)).
  apply: Hc.
  move: (sm_find_In (sm_wf_uniq Hwb) Hb'); rewrite (sm_find_In (sm_wf_uniq Hwb) Hin) => -[<- <-] //.
Qed.

Lemma order_cases ix : ix < len ->
  [\/ exists l u st, sm_find bs ix = Some (l, u, st),
      exists s, sm_find sets ix = Some s |
      exists jx m, sm_find deps ix = Some (jx, m)].
Proof.
rewrite -order_mem !mem_cat (perm_mem Huo) -Hbk -!sm_find_keys.
case/or3P.
- by case: (sm_find deps ix) => [[jx m]|] // _; constructor 3; exists jx, m.
- by case: (sm_find sets ix) => [s|] // _; constructor 2; exists s.
- by case: (sm_find bs ix) => [[[l u] st]|] // _; constructor 1; exists l, u, st.
Qed.

Lemma order_closed : closed vals nxt order.
Proof.
apply: closed_cat_indep => [ix|].
  rewrite -sm_find_keys; case E: (sm_find deps ix) => [[jx m]|] // _ e e' He.
  have [H1 H2 _ H3 _] := find_deps E.
  by rewrite /vals /nxt /dvals /dnxt H1 H2 E He.
rewrite -[sm_keys sets ++ uo]cats0; apply: closed_cat_indep => // ix.
rewrite mem_cat (perm_mem Huo) -Hbk -!sm_find_keys => H e e' _.
rewrite /vals /nxt /dvals /dnxt.
by case: (sm_find bs ix) H => [[[l u] st]|] //; case: (sm_find sets ix).
Qed.

Variable p0 : seq nat.
Hypothesis Hp0 : size p0 = len.
Hypothesis Hp0f : forall ix, ix < len -> nth 0 p0 ix = first ix.

Lemma order_lt l : {subset l <= order} -> all (fun ix => ix < size p0) l.
Proof. by move=> H; apply/allP => i /H; rewrite order_mem Hp0. Qed.

Lemma raw_ok_mem jx p : nth 0 p jx \in vals jx (nth 0 p) ->
  (exists2 s, sm_find sets jx = Some s & true) \/
  (psz = 1 /\ exists b, sm_find bs jx = Some b) -> raw_ok jx (nth 0 p jx).
Proof.
move=> Hm [[s Hs _]|[Hp [b Hb]]].
  left; exists s => //; have [H1 _ _] := find_sets Hs.
  by move: Hm; rewrite /vals /dvals H1 Hs mem_iota.
right; have [l [u [st [E Hin Hlu Hst [Hmin HW _]]]]] := find_bs Hb; subst b.
have E1 : st = 1 by move: Hmin; rewrite Hp leq_min; lia.
exists l, u; rewrite Hb E1; split=> //.
move: Hm; rewrite /vals /dvals Hb E1 => /(@mem_blkvals l u 1 _ isT Hlu)[k -> ->].
by rewrite leq_addr.
Qed.

Lemma dep_kind ix jx m : sm_find deps ix = Some (jx, m) ->
  (exists2 s, sm_find sets jx = Some s & true) \/
  (psz = 1 /\ exists b, sm_find bs jx = Some b).
Proof.
move=> Hf.
have [_ _ _ _ [_ /(_ _ _ _ (sm_find_mem Hf)) H]] := Hok.
have [[Hwb Hws _] _ _ _ _] := Hok.
case: H => [[s Hs _]|[Hp [l [u [Hb _]]]]].
  by left; exists s => //; apply: sm_find_In => //; apply: sm_wf_uniq.
right; split=> //; have [st [-> _ _]] := Hbf Hb; by exists (l, u, st).
Qed.

Lemma order_good : all_good vals nxt first order p0.
Proof.
apply: all_good_suffix => a ix r E p Hp.
have Hix : ix < len by rewrite -order_mem E mem_cat inE eqxx orbT.
have Hur : uniq r by move: order_uniq; rewrite E cat_uniq => /and3P[_ _ /andP[]].
have [Hcix Hcr] : closed vals nxt (ix :: r).
  by apply: (@closed_suffix _ _ a); rewrite -E; apply: order_closed.
have Hrs : all (fun ix => ix < size p0) r.
  by apply: order_lt => j Hj; rewrite E mem_cat inE Hj !orbT.
have /(mem_penum _ Hur Hcr Hrs)[_ _ Hin] := Hp.
case: (order_cases Hix) => [[l [u [st Hf]]]|[s Hs]|[jx [m Hd]]].
- have [l' [u' [st' [[E1 E2 E3] _ H1 H2 [_ H3 _]]]]] := find_bs Hf; subst l' u' st'.
  exact: good_block Hf _ _ _.
- have [H1 H2 H3] := find_sets Hs; exact: good_set Hs H3.
have [H1 H2 H3 H4 H5] := find_deps Hd.
have Hjr : jx \in r.
  have [Hd1 Hd2 _] := keys_disj3.
  have Hjo : jx \in order by rewrite mem_cat H4 orbT.
  have Hjd : jx \notin sm_keys deps.
    apply/negP => Hj; move: H4; rewrite mem_cat (perm_mem Huo).
    by rewrite (negbTE (Hd1 _ Hj)) (negbTE (Hd2 _ Hj)).
  have Hsuf : exists2 a', sm_keys deps = a ++ ix :: a' & r = a' ++ sm_keys sets ++ uo.
    move: E H3 order_uniq Hjd; rewrite /order.
    elim: (sm_keys deps) a {Hjo Hd1 Hd2 Hp Hin Hcix Hcr Hrs Hur} => [|d ds IH] [|y a] //=.
      by case=> <- <- _ _ _; exists ds.
    case=> -> E; rewrite inE => /orP[/eqP Ei|Hi] /andP[Hn Hu]; rewrite inE negb_or => /andP[_ Hjd].
      by case/negP: Hn; rewrite -Ei E mem_cat inE eqxx orbT.
    by have [a' -> ->] := IH _ E Hi Hu Hjd; exists a'.
  have [a' _ ->] := Hsuf.
  by rewrite mem_cat H4 orbT.
have Hraw : raw_ok jx (nth 0 p jx).
  by apply: raw_ok_mem (dep_kind Hd); apply: Hin.
have [c Hc1 Hc2] := H5 _ Hraw.
exact: good_dep Hd Hc1 Hc2.
Qed.

(** The iterator object in position [p]. *)
Let itp (p : seq nat) (e : bool) : biter :=
  BIter len uo (sm_keys sets) (sm_keys deps) bs sets deps p e.

Lemma itp_step p : 0 < len -> size p = len ->
  bi_step W (itp p false) = Ok (itp (gstep nxt first order p).1 (gstep nxt first order p).2).
Proof.
move=> Hlen Hp.
have [Hd1 Hd2 Hd3] := keys_disj3.
have Halt : forall l, {subset l <= order} -> all (fun ix => ix < size p) l.
  by move=> l H; apply/allP => i /H; rewrite order_mem Hp.
have HB : all (fun ix => ix \in sm_keys bs) uo.
  by apply/allP => i; rewrite (perm_mem Huo) Hbk.
have HS : all (fun ix => (ix \notin sm_keys bs) && (ix \in sm_keys sets)) (sm_keys sets).
  by apply/allP => i Hi; rewrite Hbk Hd3.
have HD : all (fun ix => [&& ix \notin sm_keys bs, ix \notin sm_keys sets & ix \in sm_keys deps])
   (sm_keys deps).
  by apply/allP => i Hi; rewrite Hbk Hd2 // Hd1.
rewrite /bi_step /= -/(itp p false) /nxt /first /order.
case Ed: {1}deps => [|d ds].
  have Ek : sm_keys deps = [::] by rewrite Ed.
  rewrite Ek cat0s.
  case Es: {1}sets => [|s ss].
    have Ek' : sm_keys sets = [::] by rewrite Es.
    rewrite Ek' cat0s (step_blocksE W sets deps) //; last first.
      by apply: Halt => i Hi; rewrite !mem_cat Hi !orbT.
    move: Hlen order_perm; rewrite /order Ek Ek' !cat0s.
    by case: (uo) => // Hl /perm_size; rewrite size_iota /=; case: (len) Hl.
  rewrite (@step_setsE W bs sets deps (itp p false)) //.
    by rewrite Es.
  by apply: Halt => i Hi; rewrite mem_cat Hi orbT.
rewrite (@step_depsE W bs sets deps (itp p false)) //.
- by rewrite Ed.
- by move: order_uniq; rewrite /order cat_uniq => /and3P[].
- exact: Halt.
- move=> ix jx m Hix Hf; have [_ _ _ H4 _] := find_deps Hf.
  have Hjo : jx \in order by rewrite mem_cat H4 orbT.
  rewrite Hp -order_mem Hjo; split=> //.
  apply/eqP => E; move: H4; rewrite E mem_cat (perm_mem Huo).
  by rewrite (negbTE (Hd1 _ Hix)) (negbTE (Hd2 _ Hix)).
Qed.

Lemma gstep_size o p : all (fun ix => ix < size p) o ->
  size (gstep nxt first o p).1 = size p.
Proof.
elim: o p => [|ix o IH] p //= /andP[H Ho].
case: (nxt _ _ _) => [y|] /=; first by rewrite size_set_nth; apply/maxn_idPr.
rewrite IH size_set_nth; [exact/maxn_idPr|].
by rewrite (maxn_idPr H).
Qed.

Definition positions : seq (seq nat) := penum vals order p0.

Lemma positions_size p : p \in positions -> size p = len.
Proof. by move=> H; rewrite -Hp0; apply: penum_size H; apply: order_lt. Qed.

Lemma iterate_chain A (f : biter -> res A) (g : seq nat -> A) l n : 0 < len ->
  {in l, forall p, size p = len /\ f (itp p false) = Ok (g p)} ->
  chain_to (onext nxt first order) l None -> size l <= n ->
  forall p l', l = p :: l' -> iterate W f n (itp p false) = Ok (map g l).
Proof.
move=> Hlen; elim: l n => [|p l IH] // [|n] //= H [Hn Hc] Hs p' l' [<- El].
have [Hsp ->] := H p (mem_head _ _).
rewrite /= itp_step //=; move: Hn; rewrite /onext.
case: (gstep nxt first order p) => q [] /=.
  case: l IH H Hc Hs El => [|x l] //= IH H Hc Hs El _.
  by case: n {IH Hs}.
case: l IH H Hc Hs El => [|x l] //= IH H Hc Hs El [->].
have := IH n _ Hc Hs x l erefl => -> //.
by move=> y Hy; apply: H; rewrite inE Hy orbT.
Qed.

Lemma positions_head : exists l, positions = p0 :: l.
Proof.
apply: (penum_head order_good); first exact: order_lt.
by move=> i; rewrite order_mem => /Hp0f.
Qed.

Lemma iterate_positions A (f : biter -> res A) (g : seq nat -> A) : 0 < len ->
  {in positions, forall p, f (itp p false) = Ok (g p)} ->
  forall n, size positions <= n -> iterate W f n (itp p0 false) = Ok (map g positions).
Proof.
move=> Hlen Hf n Hn; have [l El] := positions_head.
have [Hc _] := penum_chain order_uniq order_closed order_good.
apply: (iterate_chain Hlen _ Hc Hn El) => p Hp.
by split; [apply: positions_size|apply: Hf].
Qed.

(** The state after [k] steps is the [k]-th position. *)
Lemma chain_reach l : 0 < len -> {in l, forall p, size p = len} ->
  chain_to (onext nxt first order) l None -> forall p l', l = p :: l' ->
  forall k it, iter k (fun m => bind m (bi_step W)) (Ok (itp p false)) = Ok it ->
  ~~ bi_end it -> exists2 q, q \in l & it = itp q false.
Proof.
move=> Hlen; elim: l => [|p l IH] // Hl /= [Hn Hc] p' l' [<- El] k it.
case: k => [|k].
  by move=> [<-] _; exists p => //; rewrite inE eqxx.
rewrite iterSr /= itp_step ?Hl ?inE ?eqxx //; move: Hn; rewrite /onext.
case: (gstep nxt first order p) => q [] /=.
  move=> _ Hk /negP[]; move: Hk; elim: k it => [|k IHk] it /=; first by case=> <-.
  move=> H; have [it' /IHk He] := bind_Ok_inv H.
  by rewrite /bi_step He => -[<-].
case: l IH Hl Hc El => [|x l] //= IH Hl Hc El [->] Hk He.
have [|q' Hq' ->] := IH _ Hc x l erefl k it Hk He.
  by move=> y Hy; apply: Hl; rewrite inE Hy orbT.
by exists q' => //; rewrite inE Hq' orbT.
Qed.

(** ** Values and boxes *)

Definition posval (p : seq nat) (i : nat) : nat :=
  if sm_find deps i is Some (jx, m) then nth 0 (choices m (nth 0 p jx)) (nth 0 p i)
  else if sm_find sets i is Some s then nth 0 s (nth 0 p i) else nth 0 p i.

Lemma positions_vals p i : p \in positions -> i < len -> nth 0 p i \in vals i (nth 0 p).
Proof.
move=> /(mem_penum _ order_uniq order_closed (order_lt (fun _ => id)))[_ _ H] Hi.
by apply: H; rewrite order_mem.
Qed.

Lemma dep_choice p ix jx m : p \in positions -> sm_find deps ix = Some (jx, m) ->
  exists2 c, sm_find m (nth 0 p jx) = Some c & values_ok W c /\ nth 0 p ix < size c.
Proof.
move=> Hp Hf; have [H1 H2 H3 H4 H5] := find_deps Hf.
have Hjx : jx < len by rewrite -order_mem mem_cat H4 orbT.
have Hix : ix < len by rewrite -order_mem mem_cat H3.
have [c Hc Hv] : exists2 c, sm_find m (nth 0 p jx) = Some c & values_ok W c.
  by apply: H5; apply: raw_ok_mem (dep_kind Hf); apply: positions_vals.
exists c => //; split=> //.
have := positions_vals Hp Hix; rewrite /vals /dvals H1 H2 Hf /choices Hc.
by rewrite mem_iota.
Qed.

Lemma set_choice p ix s : p \in positions -> sm_find sets ix = Some s ->
  values_ok W s /\ nth 0 p ix < size s.
Proof.
move=> Hp Hf; have [H1 H2 H3] := find_sets Hf; split=> //.
have Hix : ix < len by rewrite -order_mem !mem_cat H2 orbT.
have := positions_vals Hp Hix; rewrite /vals /dvals H1 Hf.
by rewrite mem_iota.
Qed.

Lemma sm_wfs : [/\ sm_wf blocks, sm_wf sets & sm_wf deps]. Proof. by case: Hok. Qed.

Lemma as_position_ok p e : p \in positions ->
  as_position (itp p e) = Ok [seq posval p i | i <- iota 0 len].
Proof.
move=> Hp; rewrite /as_position /=.
have Hs := positions_size Hp.
have [Hwb Hws Hwd] := sm_wfs.
have [Hd1 Hd2 Hd3] := keys_disj3.
have Halt : forall l, {subset l <= order} -> all (fun ix => ix < size p) l.
  by move=> l H; apply/allP => i /H; rewrite order_mem Hs.
have [||v [-> Hv Hn]] := @foldM_update nat _ 0 resolve_dep
   (fun ix (d : nat * smap (seq nat)) => nth 0 (choices d.2 (nth 0 p d.1)) (nth 0 p ix)) p deps
   (sm_wf_uniq Hwd).
- by apply: Halt => i Hi; rewrite mem_cat Hi.
- move=> v ix [jx m] Hin Hsv Hix Hout /=.
  have Hf := sm_find_In (sm_wf_uniq Hwd) Hin.
  have [H1 H2 H3 H4 H5] := find_deps Hf.
  have Hjx : jx < len by rewrite -order_mem mem_cat H4 orbT.
  have Hilen : ix < len by rewrite -order_mem mem_cat H3.
  have Hjd : jx \notin sm_keys deps.
    apply/negP => Hj; move: H4; rewrite mem_cat (perm_mem Huo).
    by rewrite (negbTE (Hd1 _ Hj)) (negbTE (Hd2 _ Hj)).
  have [c Hc [Hvc Hlt]] := dep_choice Hp Hf.
  rewrite (vgetE 0) ?Hsv ?Hs //= (vgetE 0) ?Hsv ?Hs //= Hout // Hix /choices Hc.
  by rewrite (vgetE 0) //= (vsetE 0) // Hsv Hs.
rewrite /=.
have [||v' [-> Hv' Hn']] := @foldM_update nat _ 0 resolve_set
   (fun ix (s : seq nat) => nth 0 s (nth 0 p ix)) v sets (sm_wf_uniq Hws).
- by rewrite Hv; apply: Halt => i Hi; rewrite !mem_cat Hi orbT.
- move=> w ix s Hin Hsw Hix Hout /=.
  have Hf := sm_find_In (sm_wf_uniq Hws) Hin.
  have [H1 H2 H3] := find_sets Hf.
  have Hilen : ix < len by rewrite -order_mem !mem_cat H2 orbT.
  have [_ Hlt] := set_choice Hp Hf.
  have Hdn : sm_find deps ix = None.
    by apply: sm_find_None; apply/negP => /Hd1; rewrite H2.
  rewrite (vgetE 0) ?Hsw ?Hv ?Hs //= Hix Hn Hdn.
  by rewrite (vgetE 0) //= (vsetE 0) // Hsw Hv Hs.
congr Ok; apply: (@eq_from_nth _ 0); first by rewrite Hv' Hv Hs size_map size_iota.
move=> i; rewrite Hv' Hv Hs => Hi.
rewrite (nth_map 0) ?size_iota // nth_iota // add0n Hn' Hn /posval.
case Es: (sm_find sets i) => [s|]; last by case: (sm_find deps i) => [[]|].
have [_ H2 _] := find_sets Es.
by rewrite (@sm_find_None _ deps) //; apply/negP => /Hd1; rewrite H2.
Qed.

Definition boxat (p : seq nat) (i : nat) : nat * nat :=
  (posval p i, if sm_find bs i is Some (l, u, st) then minn (posval p i + st) u
               else (posval p i).+1).
Definition boxof (p : seq nat) : seq (nat * nat) := [seq boxat p i | i <- iota 0 len].

Lemma block_pos p ix l u st : p \in positions -> sm_find bs ix = Some (l, u, st) ->
  exists2 k, posval p ix = l + k * st & posval p ix < u.
Proof.
move=> Hp Hf; have [l' [u' [st' [[E1 E2 E3] Hin H1 H2 [H3 H4 _]]]]] := find_bs Hf; subst l' u' st'.
have Hk : ix \in sm_keys blocks by apply/mapP; exists (ix, (l, u)).
have [Hd1 Hd2 Hd3] := keys_disj3.
have Hix : ix < len by rewrite -order_mem !mem_cat (perm_mem Huo) Hk !orbT.
have -> : posval p ix = nth 0 p ix.
  rewrite /posval (@sm_find_None _ deps); last by apply/negP => /Hd2; rewrite Hk.
  by rewrite (@sm_find_None _ sets) //; apply/negP => /Hd3; rewrite Hk.
have := positions_vals Hp Hix; rewrite /vals /dvals Hf => /(@mem_blkvals l u st _ H2 H1)[k Hk1 Hk2].
by exists k.
Qed.

Lemma posval_succ p i : p \in positions -> i < len -> sm_find bs i = None ->
  (posval p i).+1 < W.
Proof.
move=> Hp Hi Hn.
case: (order_cases Hi) => [[l [u [st Hf]]]|[s Hs]|[jx [m Hd]]]; first by rewrite Hf in Hn.
  have [Hv Hlt] := set_choice Hp Hs.
  have [_ Hk _] := find_sets Hs.
  have [Hd1 _ _] := keys_disj3.
  have Hdn : sm_find deps i = None.
    by apply: sm_find_None; apply/negP => /Hd1; rewrite Hk.
  by rewrite /posval Hdn Hs; case/and4P: Hv => _ _ _ /allP; apply; rewrite mem_nth.
have [c Hc [Hv Hlt]] := dep_choice Hp Hd.
by rewrite /posval Hd /choices Hc; case/and4P: Hv => _ _ _ /allP; apply; rewrite mem_nth.
Qed.

Lemma as_block_ok p e : p \in positions -> as_block W (itp p e) = Ok (boxof p).
Proof.
move=> Hp; rewrite /as_block as_position_ok //= -map_comp.
set v0 := map _ _.
have Hs0 : size v0 = len by rewrite size_map size_iota.
have Hn0 : forall i, i < len -> nth (0,0) v0 i = (posval p i, (posval p i).+1 %% W).
  by move=> i Hi; rewrite (nth_map 0) ?size_iota // nth_iota.
have Hwf := sm_wf_uniq Hbw.
have Hklen : {in sm_keys bs, forall k, k < len}.
  by move=> k; rewrite Hbk => Hk; rewrite -order_mem !mem_cat (perm_mem Huo) Hk !orbT.
have [||v [-> Hv Hn]] := @foldM_update (nat * nat) _ (0,0)
  (fun bounds (kb : nat * (nat * nat * nat)) =>
           let: (ix, (_, ubd, step)) := kb in
           c <- vget bounds ix ;;
           vset bounds ix (c.1, block_ubd W c.1 ubd step))
  (fun ix b => (posval p ix, minn (posval p ix + b.2) b.1.2)) v0 bs Hwf.
- by apply/allP => k /Hklen; rewrite Hs0.
- move=> v ix [[l u] st] Hin Hsv Hix _ /=.
  have Hf := sm_find_In Hwf Hin.
  have Hilen : ix < len by apply: Hklen; rewrite -sm_find_keys Hf.
  rewrite (vgetE (0,0)) ?Hsv ?Hs0 //= Hix Hn0 //= (vsetE (0,0)) ?Hsv ?Hs0 //.
  have [l' [u' [st' [[E1 E2 E3] _ H1 H2 [H3 H4 _]]]]] := find_bs Hf; subst l' u' st'.
  have [k Hk1 Hk2] := block_pos Hp Hf.
  rewrite /block_ubd modn_small; last by lia.
  by congr (Ok (set_nth _ _ _ (_, _))); rewrite /=; case: ltnP => ?; lia.
congr Ok; apply: (@eq_from_nth _ (0,0)); first by rewrite Hv Hs0 size_map size_iota.
move=> i; rewrite Hv Hs0 => Hi.
rewrite Hn /boxof (nth_map 0) ?size_iota // nth_iota // add0n /boxat.
case E: (sm_find bs i) => [[[l u] st]|] //.
by rewrite Hn0 // modn_small //; apply: posval_succ.
Qed.

(** ** The package containing a described position *)

Definition digit_nd (v : seq nat) (i : nat) : nat :=
  if sm_find bs i is Some (l, u, st) then l + ((nth 0 v i - l) %/ st) * st
  else if sm_find sets i is Some s then index (nth 0 v i) s else 0.
Definition digit (v : seq nat) (i : nat) : nat :=
  if sm_find deps i is Some (jx, m) then index (nth 0 v i) (choices m (digit_nd v jx))
  else digit_nd v i.
Definition digits (v : seq nat) : seq nat := [seq digit v i | i <- iota 0 len].

Lemma nth_digits v i : i < len -> nth 0 (digits v) i = digit v i.
Proof. by move=> Hi; rewrite (nth_map 0) ?size_iota // nth_iota. Qed.

Lemma digit_notdep v i : i \in sm_keys sets ++ uo -> digit v i = digit_nd v i.
Proof.
move=> Hi; rewrite /digit sm_find_None //; apply/negP => Hd.
have [Hd1 Hd2 _] := keys_disj3.
by move: Hi; rewrite mem_cat (perm_mem Huo) (negbTE (Hd1 _ Hd)) (negbTE (Hd2 _ Hd)).
Qed.

Lemma describedP v :
  reflect [/\ size v = len,
     forall i l u st, sm_find bs i = Some (l, u, st) -> l <= nth 0 v i < u,
     forall i s, sm_find sets i = Some s -> nth 0 v i \in s &
     forall i jx m, sm_find deps i = Some (jx, m) -> nth 0 v i \in choices m (digit_nd v jx)]
   (described len blocks sets deps v).
Proof.
have [Hwb Hws Hwd] := sm_wfs.
have Hcoup : forall jx, (forall i l u st, sm_find bs i = Some (l, u, st) -> l <= nth 0 v i < u) ->
   (exists2 s, sm_find sets jx = Some s & true) \/
   (psz = 1 /\ exists b, sm_find bs jx = Some b) -> coupling sets v jx = digit_nd v jx.
  move=> jx Hb [[s Hs _]|[Hp1 [b Hb']]]; rewrite /coupling /digit_nd.
    by rewrite Hs; have [-> _ _] := find_sets Hs.
  have [l [u [st [E Hin Hlu Hst [Hmin _ _]]]]] := find_bs Hb'; subst b.
  have E1 : st = 1 by move: Hmin; rewrite Hp1 leq_min; lia.
  have [_ _ Hd3] := keys_disj3.
  rewrite Hb' E1 (@sm_find_None _ sets); last first.
    by apply/negP => /Hd3 /negP; apply; apply/mapP; exists (jx, (l, u)).
  by have := Hb _ _ _ _ Hb'; rewrite divn1 muln1; lia.
apply: (iffP and4P) => [[/eqP H1 /allP H2 /allP H3 /allP H4]|[H1 H2 H3 H4]].
  have H2' : forall i l u st, sm_find bs i = Some (l, u, st) -> l <= nth 0 v i < u.
    move=> i l u st Hf; have [l' [u' [st' [[E1 E2 E3] Hin _ _ _]]]] := find_bs Hf; subst l' u' st'.
    exact: (H2 _ Hin).
  split=> //.
    by move=> i s Hf; apply: (H3 _ (sm_find_mem Hf)).
  move=> i jx m Hf; have := H4 _ (sm_find_mem Hf).
  by rewrite /= (Hcoup jx H2' (dep_kind Hf)) /choices; case: (sm_find m _).
split; first exact/eqP.
- apply/allP => -[i [l u]] Hin /=; have [st [Hf _ _]] := Hbf Hin.
  exact: H2 Hf.
- by apply/allP => -[i s] Hin /=; apply: (H3 i s); apply: sm_find_In => //; apply: sm_wf_uniq.
- apply/allP => -[i [jx m]] Hin /=.
  have Hf := sm_find_In (sm_wf_uniq Hwd) Hin.
  rewrite (Hcoup jx H2 (dep_kind Hf)).
  by move: (H4 i jx m Hf); rewrite /choices; case: (sm_find m _).
Qed.

Lemma digits_mem v : described len blocks sets deps v -> digits v \in positions.
Proof.
case/describedP => H1 H2 H3 H4.
apply/(mem_penum _ order_uniq order_closed (order_lt (fun _ => id))).
have Hsz : size (digits v) = len by rewrite size_map size_iota.
split; first by rewrite Hsz Hp0.
- move=> j; rewrite order_mem -leqNgt => Hj.
  by rewrite !nth_default ?Hp0 ?Hsz.
move=> i; rewrite order_mem => Hi; rewrite nth_digits //.
case: (order_cases Hi) => [[l [u [st Hf]]]|[s Hs]|[jx [m Hd]]].
- have [l' [u' [st' [[E1 E2 E3] Hin Hlu Hst _]]]] := find_bs Hf; subst l' u' st'.
  rewrite digit_notdep; last first.
    by rewrite mem_cat (perm_mem Huo) -Hbk -!sm_find_keys Hf orbT.
  rewrite /vals /dvals /digit_nd Hf; apply/(@mem_blkvals l u st _ Hst Hlu).
  exists ((nth 0 v i - l) %/ st) => //.
  have := H2 _ _ _ _ Hf; have := leq_trunc_div (nth 0 v i - l) st; lia.
- have [Hn Hk _] := find_sets Hs.
  rewrite digit_notdep ?mem_cat ?Hk //.
  by rewrite /vals /dvals /digit_nd Hn Hs mem_iota add0n index_mem; apply: H3.
have [Hn1 Hn2 Hk Hj _] := find_deps Hd.
rewrite /vals /dvals Hn1 Hn2 Hd mem_iota add0n /digit Hd.
have Hjlen : jx < len by rewrite -order_mem mem_cat Hj orbT.
by rewrite nth_digits // digit_notdep // index_mem H4.
Qed.

Lemma in_boxof p v : p \in positions ->
  in_box (boxof p) v = described len blocks sets deps v && (p == digits v).
Proof.
move=> Hp; have Hps := positions_size Hp.
have Hsb : size (boxof p) = len by rewrite size_map size_iota.
have Hnb : forall i, i < len -> nth (0,0) (boxof p) i = boxat p i.
  by move=> i Hi; rewrite (nth_map 0) ?size_iota // nth_iota.
apply/idP/idP.
- case/in_boxP; rewrite Hsb => Hs Hb.
  have HB : forall i l u st, sm_find bs i = Some (l, u, st) ->
     l <= nth 0 v i < u /\ nth 0 p i = digit_nd v i.
    move=> i l u st Hf; have [l' [u' [st' [[E1 E2 E3] Hin Hlu Hst _]]]] := find_bs Hf; subst l' u' st'.
    have Hkb : i \in sm_keys bs by rewrite -sm_find_keys Hf.
    have Hi : i < len by rewrite -order_mem !mem_cat (perm_mem Huo) -Hbk Hkb !orbT.
    have [k Hk1 Hk2] := block_pos Hp Hf.
    have := Hb i Hi; rewrite Hnb // /boxat Hf /= Hk1 => /andP[Hlo]; rewrite leq_min => /andP[Hhi Hu].
    split; first by lia.
    have [Hd1 Hd2 Hd3] := keys_disj3.
    have Hpv : posval p i = nth 0 p i.
      rewrite /posval (@sm_find_None _ deps); last by apply/negP => /Hd2; rewrite -Hbk Hkb.
      by rewrite (@sm_find_None _ sets) //; apply/negP => /Hd3; rewrite -Hbk Hkb.
    rewrite -Hpv Hk1 /digit_nd Hf; congr (_ + _ * _).
    have -> : nth 0 v i - l = k * st + (nth 0 v i - (l + k * st)) by lia.
    by rewrite divnMDl // divn_small ?addn0 //; lia.
  have HS : forall i s, sm_find sets i = Some s -> nth 0 v i \in s /\ nth 0 p i = digit_nd v i.
    move=> i s Hf; have [Hn Hk Hvs] := find_sets Hf.
    have Hi : i < len by rewrite -order_mem !mem_cat Hk orbT.
    have [_ Hlt] := set_choice Hp Hf.
    have [Hd1 Hd2 Hd3] := keys_disj3.
    have := Hb i Hi; rewrite Hnb // /boxat Hn /= ltnS -eqn_leq.
    rewrite /posval (@sm_find_None _ deps) ?Hf; last by apply/negP => /Hd1; rewrite Hk.
    move=> /eqP <-; split; first exact: mem_nth.
    rewrite /digit_nd Hn Hf.
    have := Hb i Hi; rewrite Hnb // /boxat Hn /= ltnS -eqn_leq.
    rewrite /posval (@sm_find_None _ deps) ?Hf; last by apply/negP => /Hd1; rewrite Hk.
    by move=> /eqP <-; rewrite index_uniq //; case/and4P: Hvs.
  have HD : forall i jx m, sm_find deps i = Some (jx, m) ->
     nth 0 v i \in choices m (digit_nd v jx) /\ nth 0 p i = digit v i.
    move=> i jx m Hf; have [Hn1 Hn2 Hk Hj _] := find_deps Hf.
    have Hi : i < len by rewrite -order_mem !mem_cat Hk.
    have [c Hc [Hvc Hlt]] := dep_choice Hp Hf.
    have Hpj : nth 0 p jx = digit_nd v jx.
      case: (dep_kind Hf) => [[s Hs' _]|[_ [b Hb']]]; first by have [] := HS _ _ Hs'.
      by case: b Hb' => -[l u] st Hb'; have [] := HB _ _ _ _ Hb'.
    have := Hb i Hi; rewrite Hnb // /boxat Hn1 /= ltnS -eqn_leq.
    rewrite /posval Hf /choices Hc => /eqP Ev; rewrite -Ev -Hpj Hc.
    split; first exact: mem_nth.
    rewrite /digit Hf -Ev -Hpj /choices Hc index_uniq //.
    by case/and4P: Hvc.
  have Hdes : described len blocks sets deps v.
    apply/describedP; split=> //.
    - by move=> i l u st /HB[].
    - by move=> i s /HS[].
    - by move=> i jx m /HD[].
  rewrite Hdes /=; apply/eqP.
  apply: (@eq_from_nth _ 0); first by rewrite Hps size_map size_iota.
  move=> i; rewrite Hps => Hi; rewrite nth_digits //.
  case: (order_cases Hi) => [[l [u [st Hf]]]|[s Hf]|[jx [m Hf]]].
  + rewrite digit_notdep; first by have [] := HB _ _ _ _ Hf.
    by rewrite mem_cat (perm_mem Huo) -Hbk -!sm_find_keys Hf orbT.
  + rewrite digit_notdep; first by have [] := HS _ _ Hf.
    by rewrite mem_cat -!sm_find_keys Hf.
  + by have [] := HD _ _ _ Hf.
- case/andP => /describedP[H1 H2 H3 H4] /eqP Ep.
  apply/in_boxP; rewrite Hsb; split=> // i Hi; rewrite Hnb // /boxat.
  have Hpi : nth 0 p i = digit v i by rewrite Ep nth_digits.
  case: (order_cases Hi) => [[l [u [st Hf]]]|[s Hf]|[jx [m Hf]]].
  + have [l' [u' [st' [[E1 E2 E3] Hin Hlu Hst _]]]] := find_bs Hf; subst l' u' st'.
    have [Hd1 Hd2 Hd3] := keys_disj3.
    have Hkb : i \in sm_keys bs by rewrite -sm_find_keys Hf.
    have -> : posval p i = l + ((nth 0 v i - l) %/ st) * st.
      rewrite /posval (@sm_find_None _ deps); last by apply/negP => /Hd2; rewrite -Hbk Hkb.
      rewrite (@sm_find_None _ sets); last by apply/negP => /Hd3; rewrite -Hbk Hkb.
      rewrite Hpi digit_notdep; first by rewrite /digit_nd Hf.
      by rewrite mem_cat (perm_mem Huo) -Hbk Hkb orbT.
    rewrite Hf /= leq_min; have := H2 _ _ _ _ Hf.
    have := leq_trunc_div (nth 0 v i - l) st; have := ltn_ceil (nth 0 v i - l) Hst.
    by rewrite mulSn; lia.
  + have [Hn Hk Hvs] := find_sets Hf; rewrite Hn /= ltnS -eqn_leq.
    have [Hd1 Hd2 Hd3] := keys_disj3.
    rewrite /posval (@sm_find_None _ deps) ?Hf; last by apply/negP => /Hd1; rewrite Hk.
    rewrite Hpi digit_notdep ?mem_cat ?Hk // /digit_nd Hn Hf.
    by rewrite nth_index //; apply: H3.
  + have [Hn1 Hn2 Hk Hj _] := find_deps Hf; rewrite Hn1 /= ltnS -eqn_leq.
    rewrite /posval Hf Hpi /digit Hf.
    have Hjlen : jx < len by rewrite -order_mem mem_cat Hj orbT.
    rewrite [in X in nth _ X _]Ep nth_digits // digit_notdep // nth_index //.
    exact: H4 Hf.
Qed.

Lemma positions_uniq : uniq positions.
Proof.
apply: uniq_penum order_uniq (order_lt (fun _ => id)) _ => ix e.
apply: dvals_uniq => l u st Hf.
by have [l' [u' [st' [[E1 E2 E3] _ _ Hst _]]]] := find_bs Hf; subst l' u' st'.
Qed.

Lemma boxes_partition v :
  count (fun b => in_box b v) (map boxof positions) = described len blocks sets deps v.
Proof.
rewrite count_map.
rewrite (@eq_in_count _ _ (fun p => described len blocks sets deps v && (p == digits v))); last first.
  by move=> p Hp /=; rewrite in_boxof.
case E: (described len blocks sets deps v) => /=; last by rewrite count_pred0.
by rewrite (count_uniq_mem _ positions_uniq) digits_mem.
Qed.

Lemma boxof_volume p : p \in positions -> 0 < box_volume (boxof p) <= psz.
Proof.
move=> Hp; rewrite /box_volume /boxof big_map.
have Hpos : forall i, i \in iota 0 len -> 0 < (boxat p i).2 - (boxat p i).1 <= stepof bs i.
  move=> i; rewrite mem_iota add0n => /andP[_ Hi]; rewrite /boxat /stepof.
  case E: (sm_find bs i) => [[[l u] st]|] /=; last by lia.
  have [l' [u' [st' [[E1 E2 E3] Hin Hlu Hst _]]]] := find_bs E; subst l' u' st'.
  by have [k Hk1 Hk2] := block_pos Hp E; lia.
apply/andP; split.
  rewrite big_seq_cond; apply: prodn_cond_gt0 => i; rewrite andbT => /Hpos; lia.
apply: leq_trans (_ : \prod_(i <- iota 0 len) stepof bs i <= _).
  rewrite big_seq_cond [X in _ <= X]big_seq_cond.
  by apply: leq_prod => i; rewrite andbT => /Hpos /andP[].
rewrite -(perm_big _ order_perm) /= /order !big_cat /= big1_seq ?mul1n; last first.
  move=> i /= Hi; rewrite /stepof sm_find_None // Hbk.
  by have [_ Hd2 _] := keys_disj3; apply: Hd2.
rewrite big1_seq ?mul1n // => i /= Hi; rewrite /stepof sm_find_None // Hbk.
by have [_ _ Hd3] := keys_disj3; apply: Hd3.
Qed.

End Main.
