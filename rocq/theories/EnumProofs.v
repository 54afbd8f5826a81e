(** The packages of CurveIterator, expanded as the workers do, visit every normal form exactly
    once. *)
Set Warnings "-notation-overridden,-ambiguous-paths".
From mathcomp Require Import all_ssreflect zify.
From Verif Require Import Res ResFacts Tables BlockIter BlockSpec BlockIterProofs BlockTheorems.
From Verif Require Import CurveIter NormalForm.

Set Implicit Arguments.
Unset Strict Implicit.
Unset Printing Implicit Defensive.

Lemma mapM_Ok_inv S T (f : T -> res S) l ys : mapM f l = Ok ys -> size ys = size l.
Proof.
elim: l ys => [|x l IH] ys /=; first by case=> <-.
move=> H; have [y _ H1] := bind_Ok_inv H.
by have [ys' /IH E [<-]] := bind_Ok_inv H1; rewrite /= E.
Qed.

Lemma ci_iterate_mono W A (f : citer -> res A) n m ci xs : n <= m ->
  ci_iterate W f n ci = Ok xs -> ci_iterate W f m ci = Ok xs.
Proof.
elim: n m ci xs => [|n IH] m ci xs; first by case: ci => [|it r] //= _; case: m => [|m].
case: m => // m; rewrite ltnS /= => Hnm; case: (ci_is_end ci) => // H.
have [x Ex H1] := bind_Ok_inv H; have [ci' Es H2] := bind_Ok_inv H1.
have [ys Ei [<-]] := bind_Ok_inv H2.
by rewrite Ex /= Es /= (IH _ _ _ Hnm Ei).
Qed.

Lemma iterate_Ok_size W A (f : biter -> res A) n it xs : iterate W f n it = Ok xs -> size xs <= n.
Proof.
elim: n it xs => [|n IH] it xs /=; case: (bi_end it) => //.
- by case=> <-.
- by case=> <-.
move=> H; have [x Ex H1] := bind_Ok_inv H; have [it' Es H2] := bind_Ok_inv H1.
by have [ys Ei [<-]] := bind_Ok_inv H2; have := IH _ _ Ei.
Qed.

Lemma ci_iterate_cat W it r n xs m ys :
  ~~ bi_end it -> iterate W (as_block W) n it = Ok xs ->
  ci_iterate W (ci_as_block W) m r = Ok ys ->
  ci_iterate W (ci_as_block W) (size xs + m) (it :: r) = Ok (xs ++ ys).
Proof.
move=> Hne Hi Hr; elim: n it xs Hne Hi => [|n IH] it xs /= Hne; rewrite (negbTE Hne) // => H.
have [x Ex H1] := bind_Ok_inv H; have [it' Es H2] := bind_Ok_inv H1.
have [zs Ei [<-]] := bind_Ok_inv H2.
rewrite /= Ex /= Es /=; case: (boolP (bi_end it')) => He /=.
  have {Ei} -> : zs = [::] by move: Ei; case: (n) => [|n'] /=; rewrite He => -[].
  by rewrite /= ?add0n Hr.
by rewrite (IH _ _ He Ei).
Qed.

Lemma mk_biter_end len blocks psz sets deps it :
  mk_biter len blocks psz sets deps = Ok it -> bi_end it = (len == 0).
Proof.
rewrite /mk_biter => H; have [[uo bs] _ H1] := bind_Ok_inv H.
by have [pos _ [<-]] := bind_Ok_inv H1.
Qed.

Definition a_len (a : bargs) : nat := a.1.1.1.

Lemma boxes_of_args W psz (l : seq bargs) :
  (forall a, a \in l -> a_ok W psz a /\ 0 < a_len a) ->
  exists its boxes,
    [/\ mapM (fun a : bargs => let: (len, blocks, sets, deps) := a in
               mk_biter len blocks psz sets deps) l = Ok its,
        (forall fuel, size boxes <= fuel -> ci_iterate W (ci_as_block W) fuel its = Ok boxes),
        (forall v, count (fun b => in_box b v) boxes = \sum_(a <- l) a_desc a v) &
        all (fun b => 0 < box_volume b <= psz) boxes].
Proof.
elim: l => [|a l IH] H.
  exists [::], [::]; split=> //; first by case.
  by move=> v; rewrite big_nil.
have [|its [boxes [E1 E2 E3 E4]]] := IH.
  by move=> b Hb; apply: H; rewrite inE Hb orbT.
have [Hok Hlen] := H a (mem_head _ _).
case: a Hok Hlen {H} => [[[len blocks] sets] deps] Hok Hlen.
have [it [bx [B1 B2 B3 B4]]] := block_partition Hok Hlen.
exists (it :: its), (bx ++ boxes); split.
- by rewrite /= B1 /= E1.
- move=> fuel; rewrite size_cat => Hf.
  apply: (ci_iterate_mono Hf).
  apply: (@ci_iterate_cat _ _ _ (size bx)) => //.
  + by rewrite (mk_biter_end B1); move: Hlen; rewrite /a_len /=; lia.
  + exact: B2.
  + exact: E2.
- by move=> v; rewrite count_cat B3 E3 big_cons.
rewrite all_cat E4 andbT; apply: sub_all B4 => b.
by case/andP.
Qed.

Lemma volume_pos b : (0 < box_volume b) = all (fun lu => lu.1 < lu.2) b.
Proof.
rewrite /box_volume; elim: b => [|lu b IH]; first by rewrite big_nil.
by rewrite big_cons muln_gt0 IH subn_gt0.
Qed.

Lemma top_corner b : 0 < box_volume b -> in_box b [seq lu.2.-1 | lu <- b].
Proof.
rewrite volume_pos /in_box; elim: b => [|lu b IH] //= /andP[H /IH ->]; rewrite andbT; lia.
Qed.

Lemma positions_of_boxes W psz boxes :
  all (fun b => [&& b != [::], box_volume b <= psz &
                    all (fun lu => (lu.1 < lu.2) && (lu.2 < W)) b]) boxes ->
  exists pss, (forall fuel, psz <= fuel -> mapM (block_positions W fuel) boxes = Ok pss) /\
    forall v, count_mem v (flatten pss) = count (fun b => in_box b v) boxes.
Proof.
elim: boxes => [|b boxes IH] /=; first by move=> _; exists [::].
move=> /andP[/and3P[Hne Hv Hb] /IH[pss [E1 E2]]].
have [it [vs [B1 B2 B3 B4 B5]]] := @bounds_positions W b Hb Hne.
exists (vs :: pss); split.
  by move=> fuel Hf; rewrite E1 // /block_positions B1 /= B2 // B5; apply: leq_trans Hv Hf.
by move=> v; rewrite /= count_cat E2 count_uniq_mem // B4.
Qed.

Section Degree.
Variables (W p q psz : nat).
Hypothesis Hq : 1 < q.
Hypothesis HW : 2 * q <= W.
Hypothesis Hpsz : 0 < psz.

Lemma args_degree_ok d a : 2 < d -> a \in args_degree p q d -> a_ok W psz a /\ 0 < a_len a.
Proof.
move=> Hd; rewrite /args_degree; case: ifP => _.
  rewrite mem_cat inE => /orP[/flatten_mapP[ix Hix /mapP[jx1 Hjx ->]]|/eqP->].
    split=> //; move: Hix Hjx; rewrite !mem_down => Hix Hjx.
    by apply: two_args_ok => //; lia.
  by split=> //; apply: mono_args_ok.
case: ifP => _.
  by rewrite !inE => /orP[] /eqP->; split=> //; [apply: divnz_args_ok|apply: square_args_ok].
by rewrite inE => /eqP->; split=> //; apply: square_args_ok.
Qed.

(** Which pair of exponents selects the enumerator of a vector. *)
Definition sel (v : seq nat) (d : nat) : option (nat * nat) :=
  match supp (zpos q v) d with
  | [::] => None
  | [:: m] => Some (m, 0)
  | m :: l :: _ => Some (m, l.+1)
  end.

Lemma two_desc_sel v d ix jx1 : 2 < d -> ix < d -> jx1 <= ix ->
  a_desc (args_two q d ix jx1) v =
  [&& valid q d v, ~~ zpos q v d, sel v d == Some (ix, jx1), opos v ix &
      if jx1 is jx.+1 then rpos q v (ix - jx) jx else true].
Proof.
move=> Hd Hix Hjx; rewrite (two_desc Hq HW Hpsz) //; apply/and5P/and5P.
  move=> [Hv Hl /allP Hu Ho /andP[/allP Hz Hr]]; split=> //.
  rewrite /sel (@supp_cons _ d ix) //; last first.
  - by move: Ho; rewrite /opos /zpos => /eqP->; lia.
  - by move=> k Hk; apply: Hu; rewrite mem_down.
  move: Hjx Hz Hr; case: jx1 => [|jx] Hjx Hz Hr.
    by rewrite supp_nil // => k Hk; apply: Hz; rewrite mem_down.
  rewrite (@supp_cons _ ix jx) //; first by move=> k Hk; apply: Hz; rewrite mem_down.
  by move: Hr; rewrite /rpos /zpos; have := gcd_le (ix - jx) Hq; lia.
move=> [Hv Hl /eqP Hs Ho Hr]; split=> //.
  apply/allP => k; rewrite mem_down => Hk; move: Hs; rewrite /sel.
  case E: (supp _ d) => [|m [|l s]] //; have [_ H _ _] := supp_consP E.
    by case=> Em _; apply: H; rewrite Em.
  by case=> Em _; apply: H; rewrite Em.
rewrite Hr andbT; apply/allP => k; rewrite mem_down => Hk; move: Hs; rewrite /sel.
case E: (supp _ d) => [|m [|l s]] //; have [_ _ _ E'] := supp_consP E.
  by case=> Em El; apply: (supp_nilP (esym E')); rewrite Em; lia.
have [_ H _ _] := supp_consP (esym E').
by case=> Em El; apply: H; lia.
Qed.

Lemma sum_sel (T : eqType) (l : seq T) (f : T -> bool) x : uniq l -> x \in l -> f x ->
  (forall y, y \in l -> f y -> y = x) -> \sum_(y <- l) (f y : nat) = 1.
Proof.
move=> Hu Hx Hf H; rewrite (bigD1_seq x) //= Hf big_seq_cond big1 // => y /andP[Hy Hne].
by case E: (f y) => //; rewrite (H y) ?eqxx // in Hne.
Qed.

Lemma sum_none (T : eqType) (l : seq T) (f : T -> bool) :
  (forall y, y \in l -> ~~ f y) -> \sum_(y <- l) (f y : nat) = 0.
Proof. by move=> H; rewrite big_seq big1 // => y /H /negbTE ->. Qed.

Lemma pairs_uniq (l : seq nat) (f : nat -> seq nat) : uniq l -> (forall i, uniq (f i)) ->
  uniq [seq (i, j) | i <- l, j <- f i].
Proof.
move=> Hl Hf; apply: allpairs_uniq_dep => //.
by move=> [i j] [i' j'] /= _ _ [-> ->].
Qed.

Lemma down_uniq hi lo : uniq (down hi lo).
Proof. by rewrite rev_uniq iota_uniq. Qed.

Lemma args_degree_desc d v : 2 < d ->
  \sum_(a <- args_degree p q d) (a_desc a v : nat) = nfpos p q d v.
Proof.
move=> Hd; rewrite /args_degree /nfpos /nf.
case: ifP => _; last first.
  case: ifP => _.
    rewrite !big_cons big_nil addn0 (divnz_desc Hq HW Hpsz) // (square_desc Hq HW Hpsz) //.
    case: (valid q d v) => //=; rewrite /opos /zpos; case: (nth 0 v d =P 0) => /= [->|]; last first.
      by rewrite andbF.
    have -> : 0 != q.-1 by lia.
    by case: (nth 0 v d.-1 == q.-1) => /=; rewrite ?addn0.
  rewrite big_cons big_nil addn0 (square_desc Hq HW Hpsz) //.
  case: (valid q d v) => //=; rewrite /opos /zpos; case: (nth 0 v d =P 0) => /= [->|]; last first.
    by rewrite andbF.
  by have -> : 0 != q.-1 by lia.
rewrite big_cat /= big_seq1 (mono_desc Hq HW Hpsz) //.
have -> : \sum_(a <- flatten [seq [seq args_two q d ix jx1 | jx1 <- down ix.+1 0] |
            ix <- down (d - 1) 0]) (a_desc a v : nat) =
  \sum_(ij <- [seq (i, j) | i <- down (d - 1) 0, j <- down i.+1 0])
     (a_desc (args_two q d ij.1 ij.2) v : nat).
  rewrite big_allpairs_dep big_flatten /= big_map.
  by apply: eq_bigr => ix _; rewrite big_map.
set L := [seq (i, j) | i <- _, j <- _].
have HL : uniq L by apply: pairs_uniq => // *; apply: down_uniq.
have memL i j : ((i, j) \in L) = (i < d - 1) && (j <= i).
  apply/allpairsPdep/idP => [[i' [j' [H1 H2 [-> ->]]]]|/andP[H1 H2]].
    by move: H1 H2; rewrite !mem_down; lia.
  by exists i, j; rewrite !mem_down; split=> //; lia.
have Edesc : {in L, forall ij, a_desc (args_two q d ij.1 ij.2) v =
   [&& valid q d v, ~~ zpos q v d, sel v d == Some ij, opos v ij.1 &
      if ij.2 is jx.+1 then rpos q v (ij.1 - jx) jx else true]}.
  by move=> [i j]; rewrite memL => /andP[H1 H2]; rewrite two_desc_sel //=; lia.
rewrite big_seq (eq_bigr _ (fun ij Hij => congr1 nat_of_bool (Edesc ij Hij))) -big_seq {Edesc}.
case Hv: (valid q d v) => /=; last by rewrite big1.
case Hz: (zpos q v d) => /=.
  rewrite big1 // add0n /opos; move: Hz; rewrite /zpos => /eqP->.
  by have -> : (q.-1 == 0) = false by lia.
have Hall : all (zpos q v) (down d 0) = (supp (zpos q v) d == [::]).
  apply/allP/eqP => [H|/supp_nilP H k]; last by rewrite mem_down => /H.
  by apply: supp_nil => k Hk; apply: H; rewrite mem_down.
rewrite Hall.
case Hz1: (zpos q v d.-1) => /=; last first.
  have Hsup : supp (zpos q v) d = d.-1 :: supp (zpos q v) d.-1.
    by apply: supp_cons; rewrite ?Hz1 //; [lia|move=> k; lia].
  rewrite Hsup /= andbF addn0 sum_none // => -[i j]; rewrite memL /sel Hsup => Hij /=.
  apply/negP => /and3P[H _ _]; move: H.
  by case: (supp _ _) => [|l s] /eqP[Ei _]; lia.
have Hlt m s : supp (zpos q v) d = m :: s -> m < d - 1.
  move=> E; have := mem_supp (zpos q v) d m; rewrite E mem_head => /esym/andP[Hm Hzm].
  case: (m =P d.-1) => [Em|]; last by lia.
  by rewrite Em Hz1 in Hzm.
rewrite /sel; case E: (supp (zpos q v) d) => [|m [|l s]] /=.
- by rewrite andbT big1 ?add0n.
- rewrite andbF addn0; case Ho: (opos v m).
    apply: (@sum_sel _ _ _ (m, 0)) => //; first by rewrite memL (Hlt _ _ E).
      by rewrite eqxx Ho.
    by move=> y _ /and3P[/eqP[->]].
  by apply: sum_none => -[i j] _ /=; apply/negP => /and3P[/eqP[<- _]]; rewrite Ho.
rewrite andbF addn0; case Ho: (opos v m && rpos q v (m - l) l).
  have [_ _ _ E'] := supp_consP E; have [Hl _ _ _] := supp_consP (esym E').
  apply: (@sum_sel _ _ _ (m, l.+1)) => //; first by rewrite memL (Hlt _ _ E) /=.
    by rewrite eqxx.
  by move=> y _ /and3P[/eqP[->]].
apply: sum_none => -[i j] _ /=; apply/negP => /andP[/eqP[<- <-]].
by rewrite Ho.
Qed.

End Degree.

Lemma degrees_ge genus marked d : 0 < genus -> d \in degrees genus marked -> 2 < d.
Proof. by rewrite mem_iota; lia. Qed.

(** The packages themselves, and the vectors of each. *)
Lemma visited_boxes W p q genus marked psz :
  p != 2 -> 1 < q -> 2 * q <= W -> 0 < genus -> 0 < psz ->
  exists its boxes pss N,
    [/\ mk_citer p q genus marked psz = Ok its,
        forall fuel, N <= fuel -> ci_iterate W (ci_as_block W) fuel its = Ok boxes,
        forall fuel, N <= fuel -> mapM (block_positions W fuel) boxes = Ok pss,
        uniq boxes /\ all (fun b => (b != [::]) && all (fun lu => (lu.1 < lu.2) && (lu.2 <= q)) b) boxes &
        forall v, count_mem v (flatten pss) = has (fun d => nfpos p q d v) (degrees genus marked)].
Proof.
move=> Hp Hq HW Hg Hpsz.
have [|its [boxes [E1 E2 E3 E4]]] :=
  @boxes_of_args W psz (flatten [seq args_degree p q d | d <- degrees genus marked]).
  move=> a /flatten_mapP[d Hd Ha]; apply: (args_degree_ok Hq HW Hpsz _ Ha).
  exact: degrees_ge Hd.
have Hdesc v : \sum_(a <- flatten [seq args_degree p q d | d <- degrees genus marked])
    (a_desc a v : nat) = has (fun d => nfpos p q d v) (degrees genus marked).
  rewrite big_flatten /= big_map.
  rewrite big_seq (eq_bigr (fun d => nfpos p q d v : nat)); last first.
    by move=> d Hd; rewrite (args_degree_desc p Hq HW Hpsz) //; apply: degrees_ge Hd.
  rewrite -big_seq; case: (boolP (has _ _)) => [/hasP[d Hd Hnf]|/hasPn Hn].
    apply: (@sum_sel _ _ _ d) => //; first exact: iota_uniq.
    move=> y Hy /andP[/validP[Hs _] _]; move: Hnf => /andP[/validP[Hs' _] _]; lia.
  by apply: sum_none.
have Hbox' : all (fun b => [&& b != [::], box_volume b <= psz &
                    all (fun lu => (lu.1 < lu.2) && (lu.2 <= q)) b]) boxes.
  apply/allP => b Hb; have /andP[H0 Hle] := allP E4 b Hb.
  have : 0 < count (fun b => in_box b [seq lu.2.-1 | lu <- b]) boxes by
    rewrite -has_count; apply/hasP; exists b => //; apply: top_corner.
  have : 0 < count (fun b' => in_box b' [seq lu.2.-1 | lu <- b]) boxes.
    by rewrite -has_count; apply/hasP; exists b => //; apply: top_corner.
  rewrite E3 Hdesc; case: (boolP (has _ _)) => // /hasP[d _ /andP[/andP[/eqP Hsz Hall] _]] _ _.
  rewrite size_map in Hsz; rewrite -size_eq0 Hsz Hle /=.
  apply/allP => lu Hlu.
  have := allP Hall lu.2.-1 (map_f (fun lu : nat * nat => lu.2.-1) Hlu).
  by move: H0; rewrite volume_pos => /allP /(_ lu Hlu) /=; lia.
have Hbox : all (fun b => [&& b != [::], box_volume b <= psz &
                    all (fun lu => (lu.1 < lu.2) && (lu.2 < W)) b]) boxes.
  apply: sub_all Hbox' => b /and3P[-> -> H] /=; apply: sub_all H => lu; lia.
have [pss [P1 P2]] := positions_of_boxes Hbox.
exists its, boxes, pss, (maxn (size boxes) psz); split.
- by rewrite /mk_citer (negbTE Hp); have -> : (genus == 0) = false by lia.
- by move=> fuel; rewrite geq_max => /andP[F1 F2]; apply: E2.
- by move=> fuel; rewrite geq_max => /andP[F1 F2]; apply: P1.
- split; last by apply: sub_all Hbox' => b /and3P[-> _ ->].
  apply: (@count_mem_uniq _ boxes) => b; case Hb: (b \in boxes); last by apply/count_memPn; rewrite Hb.
  apply/eqP; rewrite eqn_leq -has_pred1 has_count in Hb *; rewrite Hb andbT.
  have /andP[H0 _] : 0 < box_volume b <= psz by apply: (allP E4); rewrite -has_pred1 has_count.
  have : count (fun b' => in_box b' [seq lu.2.-1 | lu <- b]) boxes <= 1 by rewrite E3 Hdesc; case: (has _ _).
  by apply: leq_trans; apply: sub_count => b' /eqP ->; apply: top_corner.
- by move=> v; rewrite P2 E3 Hdesc.
Qed.

Lemma visited_ok W p q genus marked psz :
  p != 2 -> 1 < q -> 2 * q <= W -> 0 < genus -> 0 < psz ->
  exists vs N, (forall fuel, N <= fuel -> visited W fuel p q genus marked psz = Ok vs) /\
    forall v, count_mem v vs = has (fun d => nfpos p q d v) (degrees genus marked).
Proof.
move=> Hp Hq HW Hg Hpsz.
have [its [boxes [pss [N [E1 E2 E3 _ E4]]]]] := @visited_boxes W p q genus marked psz Hp Hq HW Hg Hpsz.
exists (flatten pss), N; split=> // fuel Hf.
by rewrite /visited E1 /= E2 //= E3.
Qed.
