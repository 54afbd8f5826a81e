(** Sums of quadratic characters of values of squarefree polynomials. *)
Set Warnings "-notation-overridden,-ambiguous-paths".
From mathcomp Require Import all_ssreflect ssralg ssrnum ssrint poly polydiv finalg zify.
From Verif Require Import FinField CurveSpec PointSpec PointCount PointMath PolyOrbit Squarefree KeyMath TwistProofs.

Set Implicit Arguments.
Unset Strict Implicit.
Unset Printing Implicit Defensive.
Import GRing.Theory.
Local Open Scope ring_scope.

Section Char.
Variable F : finFieldType.
Local Notation q := #|F|.
Hypothesis Ho : odd q.
Implicit Types (f s t : {poly F}) (a b c v x y : F).

Lemma predqE : (q.-1)%:Z = q%:Z - 1.
Proof. by rewrite predn_int // (leq_trans _ (card_gt1 F)). Qed.

(** ** The quadratic character *)
Definition chi (a : F) : int := if a == 0 then 0 else if sqnz a then 1 else -1.

Lemma chiM a b : chi (a * b) = chi a * chi b.
Proof.
rewrite /chi mulf_eq0; case: eqP => [_|/eqP Ha] /=; first by rewrite mul0r.
rewrite sqnzM // andbC; case: eqP => [_|/eqP Hb] /=; first by rewrite mulr0.
by rewrite andbT; case: (sqnz a); case: (sqnz b).
Qed.

Lemma chi0 : chi 0 = 0. Proof. by rewrite /chi eqxx. Qed.

Lemma chi_sqr a : chi a ^+ 2 = (a != 0)%:R.
Proof. by rewrite /chi; case: eqP => //= _; case: sqnz. Qed.

Lemma chi1 : chi 1 = 1.
Proof. by rewrite /chi oner_eq0 -(expr1n _ 2) sqnz_sqr ?oner_neq0. Qed.

Lemma sum_chi : \sum_a chi a = 0.
Proof.
have [s [Hs Hn]] := @exists_nonsquare F Ho.
have Es : chi s = -1 by rewrite /chi (negbTE Hs) (negbTE Hn).
have H (z : int) : z = - z -> z = 0 by lia.
apply: H; rewrite {1}(reindex_inj (mulfI Hs)) -sumrN; apply: eq_bigr => a _.
by rewrite chiM Es mulN1r.
Qed.

Lemma sum_chi_sqr : \sum_a chi a ^+ 2 = q%:Z - 1.
Proof.
rewrite (bigD1 0) //= chi0 expr0n add0r (eq_bigr (fun _ => 1)); last by move=> a Ha; rewrite chi_sqr Ha.
rewrite big_const iter_addr_0 (_ : #|_| = q.-1); last by rewrite -(cardC1 (0 : F)); apply: eq_card => a; rewrite !inE.
by rewrite natz; exact: predqE.
Qed.

Lemma sum_chi_shift c : c != 0 -> \sum_v chi v * chi (c + v) = -1.
Proof.
move=> Hc; rewrite (bigD1 0) //= chi0 mul0r add0r.
have E v : v != 0 -> chi v * chi (c + v) = chi (1 + c * v^-1).
  move=> Hv; have -> : c + v = v * (1 + c * v^-1) by rewrite mulrDr mulr1 mulrCA divff // mulr1 addrC.
  by rewrite chiM mulrA -expr2 chi_sqr Hv mul1r.
rewrite (eq_bigr _ E).
have := sum_chi; rewrite (reindex_inj (h := fun v => 1 + c * v^-1)) /=; last first.
  by move=> u v /addrI/(mulfI Hc)/invr_inj.
by rewrite (bigD1 0) //= invr0 mulr0 addr0 chi1 => /eqP; rewrite addrC addr_eq0 => /eqP.
Qed.

Lemma card_sum (P : pred F) : (#|[set x | P x]|)%:Z = \sum_x (P x)%:R.
Proof.
rewrite -sum1_card big_mkcond (big_morph Posz PoszD (erefl _)); apply: eq_bigr => x _.
by rewrite inE; case: (P x).
Qed.

(** The points over [F] as a character sum. *)
Lemma points_chi f : f != 0 ->
  (q + 1)%:Z - (curve_points f)%:Z =
  - (\sum_x chi f.[x] + (if odd (size f).-1 then 0 else chi (lead_coef f))).
Proof.
move=> Hf; rewrite points_split // /unramified /ramified_points.
have E : \sum_x chi f.[x] = (2 * #|[set x | sqnz f.[x]]|)%:Z + (#|[set x | root f x]|)%:Z - q%:Z.
  have Eq : q%:Z = \sum_(x : F) 1 by rewrite big_const iter_addr_0 natz.
  rewrite PoszM !card_sum Eq mulr_sumr -big_split -sumrB /=.
  apply: eq_bigr => x _; rewrite /chi /root; case: eqP => [->|/eqP Hx]; first by rewrite /sqnz eqxx.
  by case: sqnz.
have Hl : lead_coef f != 0 by rewrite lead_coef_eq0.
rewrite E /chi (negbTE Hl); move: #|_| #|_| #|_| => a b c; case: (odd _); case: (sqnz (lead_coef f)) => /=; lia.
Qed.

(** ** Values of monic polynomials *)
Lemma monics_split x k :
  perm_eq (monics F k.+1) [seq t * ('X - x%:P) + v%:P | t <- monics F k, v <- enum F].
Proof.
set s := [seq _ | t <- _, v <- _].
have Hu : uniq s.
  apply: allpairs_uniq; [exact: monics_uniq|exact: enum_uniq|].
  case=> t v [t' v'] _ _ /= E; have Ev : v = v'.
    by have := congr1 (fun p : {poly F} => p.[x]) E; rewrite !(hornerD, hornerM, hornerX, hornerN, hornerC) subrr !mulr0 !add0r.
  move: E; rewrite Ev => /addIr/mulIf E; by rewrite E // polyXsubC_eq0.
rewrite perm_sym; apply: uniq_perm => //; first exact: monics_uniq.
have Hsub : {subset s <= monics F k.+1}.
  move=> p /allpairsP[[t v] /= [Ht _ ->]]; rewrite !mem_monics in Ht *; case/andP: Ht => Hm /eqP Hs.
  have Hs1 : size (t * ('X - x%:P)) = k.+2 by rewrite size_Mmonic ?monic_neq0 ?monicXsubC // Hs size_XsubC addn2.
  have Hlt : (size (v%:P : {poly F}) < size (t * ('X - x%:P))%R)%N.
    by rewrite Hs1; apply: leq_ltn_trans (size_polyC_leq1 v) _.
  by rewrite size_addl // Hs1 eqxx andbT monicE lead_coefDl // lead_coefM (monicP Hm) lead_coefXsubC mulr1.
have [|_ H] := uniq_min_size Hu Hsub; last exact: H.
by rewrite size_allpairs !size_monics -cardE expnS mulnC.
Qed.

Lemma monics0 : monics F 0 = [:: 1].
Proof.
have Hs := size_monics F 0; have H : 1 \in monics F 0 by rewrite mem_monics monic1 size_poly1.
case: (monics F 0) Hs H => [|p [|p' l]] //= _; by rewrite inE => /eqP->.
Qed.

Lemma sum_split (h : {poly F} -> int) x k :
  \sum_(t <- monics F k.+1) h t = \sum_(t <- monics F k) \sum_v h (t * ('X - x%:P) + v%:P).
Proof.
rewrite (perm_big _ (monics_split x k)) big_allpairs_dep /=; apply: eq_bigr => t _.
by rewrite -big_enum.
Qed.

Lemma horner_split t x v y : (t * ('X - x%:P) + v%:P).[y] = t.[y] * (y - x) + v.
Proof. by rewrite !(hornerD, hornerM, hornerX, hornerN, hornerC). Qed.

Lemma sum_monics1 (h : F -> int) x k :
  \sum_(t <- monics F k.+1) h t.[x] = (q ^ k)%:Z * \sum_v h v.
Proof.
rewrite (sum_split (fun t => h t.[x]) x) (eq_bigr (fun _ => \sum_v h v)); last first.
  by move=> t _; apply: eq_bigr => v _; rewrite horner_split subrr mulr0 add0r.
by rewrite big_const_seq iter_addr_0 count_predT size_monics -mulr_natl natz.
Qed.

Lemma sum_monics2 (h : F -> F -> int) x y k : x != y ->
  \sum_(t <- monics F k.+2) h t.[x] t.[y] = (q ^ k)%:Z * \sum_v \sum_w h v w.
Proof.
move=> Hxy; have Hd : y - x != 0 by rewrite subr_eq0 eq_sym.
rewrite (sum_split (fun t => h t.[x] t.[y]) x) exchange_big mulr_sumr; apply: eq_bigr => v _.
rewrite (eq_bigr (fun t => h v (t.[y] * (y - x) + v))); last first.
  by move=> t _; rewrite !horner_split subrr mulr0 add0r.
rewrite (sum_monics1 (fun u => h v (u * (y - x) + v)) y); congr (_ * _).
rewrite [RHS](reindex_inj (h := fun u => u * (y - x) + v)) //.
by move=> u u' /addIr/(mulIf Hd).
Qed.

Lemma sum_monics_lin (h : F -> F -> int) x y :
  \sum_(t <- monics F 1) h t.[x] t.[y] = \sum_v h v (y - x + v).
Proof.
rewrite (sum_split (fun t => h t.[x] t.[y]) x) monics0 big_seq1; apply: eq_bigr => v _.
by rewrite !horner_split subrr mulr0 add0r hornerC mul1r.
Qed.

(** ** From all polynomials to the squarefree ones *)
Lemma perm_polys d :
  perm_eq (polys F d) [seq c *: t | c <- [seq c <- enum F | c != 0], t <- monics F d].
Proof.
set C := [seq c <- enum F | c != 0]; set s := [seq _ | c <- _, t <- _].
have HC c : c \in C -> c != 0 by rewrite mem_filter => /andP[].
have HsC : size C = q.-1.
  have := cardC1 (0 : F); rewrite cardE /C => <-.
  by rewrite /enum_mem -filter_predI; congr size; apply: eq_filter => c; rewrite /= !inE andbT.
have Hu : uniq s.
  apply: allpairs_uniq; [by apply: filter_uniq; exact: enum_uniq|exact: monics_uniq|].
  case=> c t [c' t'] /allpairsP[[c1 t1] /= [Hc Ht [-> ->]]] /allpairsP[[c2 t2] /= [Hc' Ht' [-> ->]]] E.
  have Ec : c1 = c2.
    have := congr1 lead_coef E; rewrite !lead_coefZ; move: Ht Ht'; rewrite !mem_monics.
    by move=> /andP[/monicP-> _] /andP[/monicP-> _]; rewrite !mulr1.
  by move: E; rewrite -Ec => /(scalerI (HC _ Hc)) ->.
rewrite perm_sym; apply: uniq_perm => //; first exact: polys_uniq.
have Hsub : {subset s <= polys F d}.
  move=> p /allpairsP[[c t] /= [Hc Ht ->]]; rewrite mem_polys size_scale ?HC //.
  by move: Ht; rewrite mem_monics => /andP[].
have [|_ H] := uniq_min_size Hu Hsub; last exact: H.
by rewrite size_polys size_allpairs HsC size_monics.
Qed.

Section Weight.
Variables (w m : {poly F} -> int).
Hypothesis Hw : forall s t, t \is monic -> w (s * t ^+ 2) = w s * m t.
Hypothesis Hsc : forall c f, c != 0 -> w (c *: f) = w f.

Local Notation A := (fun d => \sum_(t <- monics F d) w t).
Local Notation mm := (fun k => \sum_(t <- monics F k) m t).
Local Notation V := (fun d => \sum_(s <- sqf F d) w s).

Lemma conv d : (q%:Z - 1) * A d = \sum_(0 <= k < d./2.+1) mm k * V (d - k.*2)%N.
Proof.
have -> : (q%:Z - 1) * A d = \sum_(f <- polys F d) w f.
  rewrite (perm_big _ (perm_polys d)) big_allpairs_dep /= big_filter.
  rewrite [RHS](eq_bigr (fun _ => A d)); last by move=> c Hc /=; apply: eq_bigr => t _; rewrite Hsc.
  rewrite big_const_seq iter_addr_0 (_ : count _ _ = q.-1); last first.
    have := cardC1 (0 : F); rewrite cardE => <-.
    by rewrite -size_filter /enum_mem -filter_predI; congr size; apply: eq_filter => c; rewrite /= !inE andbT.
  by rewrite -mulr_natl natz; rewrite predqE.
rewrite (perm_big _ (perm_products F d)) big_flatten big_map /index_iota subn0; apply: eq_bigr => k _.
rewrite big_allpairs_dep /= mulrC big_distrlr /=; apply: eq_bigr => s _.
rewrite big_seq [RHS]big_seq; apply: eq_bigr => t; rewrite mem_monics => /andP[Ht _]; exact: Hw.
Qed.

Lemma conv0 : mm 0%N = 1 -> V 0%N = (q%:Z - 1) * A 0%N.
Proof. by move=> H; rewrite conv big_nat1 /= H mul1r. Qed.
Lemma conv1 : mm 0%N = 1 -> V 1%N = (q%:Z - 1) * A 1%N.
Proof. by move=> H; rewrite conv big_nat1 /= H mul1r. Qed.

Lemma conv_step d : mm 0%N = 1 ->
  V d.+2 + \sum_(0 <= k < d./2.+1) (mm k.+1 - q%:Z * mm k) * V (d - k.*2)%N =
  (q%:Z - 1) * (A d.+2 - q%:Z * A d).
Proof.
move=> H0; have := conv d.+2; have := conv d => /= E E2.
rewrite mulrBr [X in _ = _ - X]mulrCA E E2 [X in _ = X - _]big_nat_recl // H0 mul1r double0 subn0 -addrA; congr (_ + _).
rewrite mulr_sumr -sumrB; apply: eq_bigr => k _; by rewrite doubleS !subSS mulrBl mulrA.
Qed.
End Weight.

(** ** The three sums over squarefree polynomials *)
Local Notation Q := (q%:Z).

Lemma chi_sqrM a : chi (a ^+ 2) = (a != 0)%:R.
Proof. by rewrite expr2 chiM -expr2 chi_sqr. Qed.

Lemma sqM s t x : chi (s * t ^+ 2).[x] = chi s.[x] * (t.[x] != 0)%:R.
Proof. by rewrite hornerM horner_exp chiM chi_sqrM. Qed.

Lemma sum_neq0 : \sum_(a : F) (a != 0)%:R = Q - 1 :> int.
Proof. by rewrite -sum_chi_sqr; apply: eq_bigr => a _; rewrite chi_sqr. Qed.

Lemma qX k : (q ^ k)%:Z = Q ^+ k.
Proof. by rewrite -[LHS]natz natrX natz. Qed.

Lemma mm_one k x : \sum_(t <- monics F k.+1) (t.[x] != 0)%:R = Q ^+ k * (Q - 1) :> int.
Proof. by rewrite (sum_monics1 (fun v => (v != 0)%:R)) sum_neq0 qX. Qed.

Lemma mm_zero x : \sum_(t <- monics F 0) (t.[x] != 0)%:R = 1 :> int.
Proof. by rewrite monics0 big_seq1 hornerC oner_eq0. Qed.

Lemma delta_one (V : nat -> int) x d :
  \sum_(0 <= k < d./2.+1) (\sum_(t <- monics F k.+1) (t.[x] != 0)%:R - Q * \sum_(t <- monics F k) (t.[x] != 0)%:R) * V (d - k.*2)%N =
  - V d.
Proof.
rewrite big_nat_recl // double0 subn0 mm_one mm_zero expr0 big1 ?addr0 => [|k _]; last first.
  by rewrite !mm_one exprS mulrA subrr mul0r.
by move: #|F| (V d) => b v; lia.
Qed.

Definition single x d := \sum_(f <- sqf F d) chi f.[x] ^+ 2.
Definition pair x y d := \sum_(f <- sqf F d) chi f.[x] * chi f.[y].
Definition infinite x d := \sum_(f <- sqf F d) chi f.[x] * chi (lead_coef f).

Lemma chiZ c f x : chi (c *: f).[x] = chi c * chi f.[x].
Proof. by rewrite hornerZ chiM. Qed.

Lemma singleE x d : (Q + 1) * single x d.+1 = (Q - 1) ^+ 2 * (Q ^+ d.+1 - (- 1) ^+ d.+1).
Proof.
pose w f := chi f.[x] ^+ 2.
have Hw s t : t \is monic -> w (s * t ^+ 2) = w s * (t.[x] != 0)%:R.
  by move=> _; rewrite /w sqM exprMn; case: (_ != _).
have Hsc c f : c != 0 -> w (c *: f) = w f by move=> Hc; rewrite /w chiZ exprMn (chi_sqr c) Hc mul1r.
have A0 : \sum_(t <- monics F 0) w t = 1 by rewrite monics0 big_seq1 /w hornerC chi1.
have AS k : \sum_(t <- monics F k.+1) w t = Q ^+ k * (Q - 1).
  by rewrite -(mm_one k x); apply: eq_bigr => t _; rewrite /w chi_sqr.
have V0 : single x 0 = Q - 1 by rewrite /single -/w (conv0 Hw Hsc (mm_zero x)) A0 mulr1.
have V1 : single x 1 = (Q - 1) * (Q - 1) by rewrite /single -/w (conv1 Hw Hsc (mm_zero x)) AS expr0 mul1r.
have VS e : single x e.+2 = single x e + (Q - 1) * (\sum_(t <- monics F e.+2) w t - Q * \sum_(t <- monics F e) w t).
  have := conv_step Hw Hsc e (mm_zero x); rewrite (delta_one (fun d => \sum_(f <- sqf F d) w f)) => <-.
  by rewrite -/(single x e) -/(single x e.+2) addrC subrK.
have [m] := ubnP d; elim: m d => // m IH [_|[_|d Hd]].
- by rewrite V1 !expr1 expr2; move: #|F| => b; lia.
- by rewrite VS V0 AS A0 expr1 !expr2; move: #|F| => b; lia.
rewrite VS mulrDr IH; last by lia.
rewrite !AS !exprS.
move: (Q ^+ d) ((-1) ^+ d : int) #|F| => X Y b; lia.
Qed.

Lemma infiniteE x m : infinite x (2 * m.+1) = - (Q - 1) ^+ 2.
Proof.
pose w f := chi f.[x] * chi (lead_coef f).
have Hw s t : t \is monic -> w (s * t ^+ 2) = w s * (t.[x] != 0)%:R.
  by move=> Ht; rewrite /w sqM lead_coefM lead_coef_exp (monicP Ht) expr1n mulr1 mulrAC.
have Hsc c f : c != 0 -> w (c *: f) = w f.
  by move=> Hc; rewrite /w chiZ lead_coefZ chiM mulrACA -expr2 chi_sqr Hc mul1r.
have A0 : \sum_(t <- monics F 0) w t = 1 by rewrite monics0 big_seq1 /w hornerC lead_coef1 chi1.
have AS k : \sum_(t <- monics F k.+1) w t = 0.
  rewrite big_seq (eq_bigr (fun t => chi t.[x])) => [|t]; last first.
    by rewrite mem_monics => /andP[/monicP Ht _]; rewrite /w Ht chi1 mulr1.
  by rewrite -big_seq (sum_monics1 chi) sum_chi mulr0.
have V0 : infinite x 0 = Q - 1 by rewrite /infinite -/w (conv0 Hw Hsc (mm_zero x)) A0 mulr1.
have VS e : infinite x e.+2 = infinite x e + (Q - 1) * (\sum_(t <- monics F e.+2) w t - Q * \sum_(t <- monics F e) w t).
  have := conv_step Hw Hsc e (mm_zero x); rewrite (delta_one (fun d => \sum_(f <- sqf F d) w f)) => <-.
  by rewrite -/(infinite x e) -/(infinite x e.+2) addrC subrK.
elim: m => [|m IH]; first by rewrite muln1 VS V0 AS A0 expr2; move: #|F| => b; lia.
have -> : (2 * m.+2 = (2 * m.+1).+2)%N by lia.
by rewrite VS IH (_ : (2 * m.+1 = (2 * m).+2)%N) ?AS; [rewrite mulr0 subrr mulr0 addr0|lia].
Qed.

Lemma pairE x y m : x != y ->
  pair x y (2 * m) = (Q - 1) * (m.+1%:Z - Q * m%:Z) /\ pair x y (2 * m).+1 = - ((Q - 1) * (m.+1%:Z - Q * m%:Z)).
Proof.
move=> Hxy; pose w f := chi f.[x] * chi f.[y]; pose h (a b : F) : int := (a != 0)%:R * (b != 0)%:R.
pose mu t := h t.[x] t.[y].
have Hw s t : t \is monic -> w (s * t ^+ 2) = w s * mu t by move=> _; rewrite /w !sqM /mu /h mulrACA.
have Hsc c f : c != 0 -> w (c *: f) = w f.
  by move=> Hc; rewrite /w !chiZ mulrACA -expr2 chi_sqr Hc mul1r.
have Hd : y - x != 0 by rewrite subr_eq0 eq_sym.
have A0 : \sum_(t <- monics F 0) w t = 1 by rewrite monics0 big_seq1 /w !hornerC chi1.
have A1 : \sum_(t <- monics F 1) w t = -1.
  by rewrite (sum_monics_lin (fun a b => chi a * chi b)) sum_chi_shift.
have A2 k : \sum_(t <- monics F k.+2) w t = 0.
  rewrite (sum_monics2 (fun a b => chi a * chi b) k Hxy) big1 ?mulr0 // => a _.
  by rewrite -mulr_sumr sum_chi mulr0.
have M0 : \sum_(t <- monics F 0) mu t = 1 by rewrite monics0 big_seq1 /mu /h !hornerC oner_eq0.
have M1 : \sum_(t <- monics F 1) mu t = Q - 2.
  rewrite (sum_monics_lin h).
  have E v : h v (y - x + v) = (v != 0)%:R - (v == x - y)%:R.
    rewrite /h addrC addr_eq0 opprB; case: (v =P x - y) => [->|_] /=; last by rewrite mulr1 subr0.
    by rewrite mulr0 subr_eq0 Hxy subrr.
  rewrite (eq_bigr _ (fun v _ => E v)) sumrB sum_neq0 (bigD1 (x - y)) //= eqxx big1 => [|v /negbTE->] //.
  by move: #|F| => b; lia.
have M2 k : \sum_(t <- monics F k.+2) mu t = Q ^+ k * (Q - 1) ^+ 2.
  rewrite (sum_monics2 h k Hxy) qX; congr (_ * _); rewrite expr2 -{1}sum_neq0 mulr_suml; apply: eq_bigr => a _.
  by rewrite -sum_neq0 mulr_sumr.
pose V d := pair x y d.
have V0 : V 0%N = Q - 1 by rewrite /V /pair -/w (conv0 Hw Hsc M0) A0 mulr1.
have V1 : V 1%N = - (Q - 1) by rewrite /V /pair -/w (conv1 Hw Hsc M0) A1 mulrN1.
have VS e : V e.+2 + \sum_(0 <= k < e./2.+1) (\sum_(t <- monics F k.+1) mu t - Q * \sum_(t <- monics F k) mu t) * V (e - k.*2)%N =
    (Q - 1) * (\sum_(t <- monics F e.+2) w t - Q * \sum_(t <- monics F e) w t) by exact: (conv_step Hw Hsc).
have D0 : Q - 2 - Q * 1 = -2 by move: #|F| => b; lia.
have V2 : V 2%N = 2 * V 0%N - Q * (Q - 1).
  by have := VS 0%N; rewrite big_nat1 M0 M1 A2 A0 D0; move: (V _) (V _) #|F| => u v b; lia.
have V3 : V 3%N = 2 * V 1%N + Q * (Q - 1).
  by have := VS 1%N; rewrite big_nat1 M0 M1 A2 A1 D0; move: (V _) (V _) #|F| => u v b; lia.
have V4 e : V e.+4 = 2 * V e.+2 - V e.
  have := VS e.+2; rewrite big_nat_recl // big_nat_recl // M0 M1 !A2 D0 (M2 0%N) big1 => [|k _].
    rewrite double0 /= !subSS !subn0 expr0 mul1r (_ : (Q - 1) ^+ 2 - Q * (Q - 2) = 1); last by rewrite expr2; move: #|F| => b; lia.
    by move: (V _) (V _) (V _) #|F| => u v z b; lia.
  by rewrite !M2 exprS mulrA subrr mul0r.
have K k : V (2 * k)%N = (Q - 1) * (k.+1%:Z - Q * k%:Z) /\ V (2 * k).+1 = - ((Q - 1) * (k.+1%:Z - Q * k%:Z)).
  have [n] := ubnP k; elim: n k => // n IH [_|[_|k Hk]].
  - by rewrite muln0 V0 V1 mulr0 subr0 mulr1.
  - by rewrite muln1 V2 V3 V0 V1; move: #|F| => b; split; lia.
  have -> : (2 * k.+2 = (2 * k).+4)%N by lia.
  have [|I1 I2] := IH k; first lia.
  have [|J1 J2] := IH k.+1; first lia.
  have E2 : (2 * k.+1 = (2 * k).+2)%N by lia.
  rewrite E2 in J1 J2; rewrite !V4 I1 I2 J1 J2; move: #|F| => b; split; lia.
exact: K.
Qed.

(** ** The second moment *)
Lemma sqf_neq0 d f : f \in sqf F d -> f != 0.
Proof. by rewrite mem_sqf => /andP[_ /eqP Hs]; rewrite -size_poly_gt0 Hs. Qed.

Definition affine_sum f := \sum_x chi f.[x].

Lemma affine_squares d (S P : int) :
  (forall x, (Q + 1) * single x d = S) -> (forall x y, x != y -> pair x y d = P) ->
  (Q + 1) * (\sum_(f <- sqf F d) affine_sum f ^+ 2) = Q * S + (Q + 1) * (Q * (Q - 1) * P).
Proof.
move=> HS HP.
have E : \sum_(f <- sqf F d) affine_sum f ^+ 2 = \sum_x (single x d + (Q - 1) * P).
  transitivity (\sum_(f <- sqf F d) \sum_x \sum_y chi f.[x] * chi f.[y]).
    by apply: eq_bigr => f _; rewrite expr2 /affine_sum big_distrlr.
  rewrite exchange_big; apply: eq_bigr => x _; rewrite exchange_big (bigD1 x) //=; congr (_ + _).
  rewrite (eq_bigr (fun _ => P)) => [|y Hy]; last by rewrite -(HP x y) // eq_sym.
  rewrite big_const iter_addr_0 (_ : #|_| = q.-1); last by rewrite -(cardC1 x); apply: eq_card => a; rewrite !inE.
  by rewrite -predqE -mulr_natl natz.
rewrite E mulr_sumr (eq_bigr (fun _ => S + (Q + 1) * ((Q - 1) * P))) => [|x _]; last by rewrite mulrDr HS.
by rewrite big_const iter_addr_0 -mulr_natl natz; move: #|F| => b; lia.
Qed.

Lemma first_offset f : f != 0 ->
  base_offset f 1 = - (affine_sum f + (if odd (size f).-1 then 0 else chi (lead_coef f))).
Proof.
move=> Hf; rewrite (base_offsetE [rmorphism of @idfun F]) // map_poly_id // -points_chi //.
Qed.

Lemma moment_odd g :
  (Q + 1) * (\sum_(f <- sqf F (2 * g).+1) base_offset f 1 ^+ 2) =
  Q * (Q - 1) ^+ 2 * (Q ^+ (2 * g).+1 + 1 + (Q + 1) * ((Q - 1) * g%:Z - 1)).
Proof.
rewrite big_seq (eq_bigr (fun f => affine_sum f ^+ 2)) => [|f Hf]; last first.
  rewrite (first_offset (sqf_neq0 Hf)); move: Hf; rewrite mem_sqf => /andP[_ /eqP->].
  by rewrite /= oddM /= addr0 sqrrN.
rewrite -big_seq (affine_squares (fun x => singleE x _) (fun x y H => (pairE g H).2)).
have -> : (-1) ^+ (2 * g).+1 = -1 :> int by rewrite -signr_odd /= oddM.
by rewrite !expr2; move: (Q ^+ (2 * g).+1) #|F| => X b; lia.
Qed.

Lemma moment_even g :
  (Q + 1) * (\sum_(f <- sqf F (2 * g).+2) base_offset f 1 ^+ 2) =
  Q * ((Q - 1) ^+ 2 * (Q ^+ (2 * g).+2 - 1)) + (Q + 1) * (Q * (Q - 1) * ((Q - 1) * (g.+2%:Z - Q * g.+1%:Z)))
  - (Q + 1) * (2 * Q * (Q - 1) ^+ 2) + (Q + 1) * ((Q - 1) ^+ 2 * Q ^+ (2 * g).+1).
Proof.
have Ed : ((2 * g).+2 = 2 * g.+1)%N by lia.
rewrite big_seq (eq_bigr (fun f => affine_sum f ^+ 2 + (2 * (\sum_x chi f.[x] * chi (lead_coef f)) + 1))) => [|f Hf]; last first.
  rewrite (first_offset (sqf_neq0 Hf)); have Hl : lead_coef f != 0 by rewrite lead_coef_eq0 (sqf_neq0 Hf).
  move: Hf; rewrite mem_sqf => /andP[_ /eqP->] /=; rewrite oddM /= sqrrN sqrrD chi_sqr Hl -mulr_suml -addrA -/(affine_sum f).
  by rewrite -mulr_natl.
rewrite -big_seq big_split /= mulrDr (@affine_squares _ _ _ (fun x => singleE x _) (fun x y H => etrans (congr1 (pair x y) Ed) (pairE g.+1 H).1)).
have -> : (-1) ^+ (2 * g).+2 = 1 :> int by rewrite -signr_odd /= oddM.
have -> : \sum_(f <- sqf F (2 * g).+2) (2 * (\sum_x chi f.[x] * chi (lead_coef f)) + 1) =
    - (2 * Q * (Q - 1) ^+ 2) + (Q - 1) ^+ 2 * Q ^+ (2 * g).+1.
  rewrite big_split /= -mulr_sumr exchange_big (eq_bigr (fun _ => - (Q - 1) ^+ 2)) => [|x _]; last by rewrite -(infiniteE x g) -Ed.
  rewrite !big_const_seq !iter_addr_0 !count_predT size_sqf natz PoszM predqE -subzn ?leq_exp2l ?(card_gt1 F) //.
  rewrite !qX -[index_enum _]enumT -cardE -mulr_natl natz (exprS Q (2 * g).+1) !expr2; move: (Q ^+ (2 * g).+1) #|F| => X b; lia.
by rewrite [X in _ + X = _]mulrDr mulrN addrA.
Qed.

Lemma moment_both g :
  \sum_(f <- sqf F (2 * g).+1) base_offset f 1 ^+ 2 + \sum_(f <- sqf F (2 * g).+2) base_offset f 1 ^+ 2 =
  Q * (Q - 1) ^+ 2 * (Q + 1) * (Q ^+ (2 * g) - 1).
Proof.
have H1 : Q + 1 != 0 by move: #|F| => b; lia.
apply: (mulfI H1); rewrite [LHS]mulrDr moment_odd moment_even !(exprS Q (2 * g).+1) !(exprS Q (2 * g)) !expr2.
by move: (Q ^+ (2 * g)) #|F| => X b; lia.
Qed.
End Char.
