(** Squarefree polynomials over a finite field: the defining property and their number. *)
Set Warnings "-notation-overridden,-ambiguous-paths".
From mathcomp Require Import all_ssreflect ssralg ssrnum poly polydiv matrix mxpoly finalg zify.
From Verif Require Import FinField CurveSpec PolyOrbit.

Set Implicit Arguments.
Unset Strict Implicit.
Unset Printing Implicit Defensive.
Import GRing.Theory.
Local Open Scope ring_scope.

Section Squarefree.
Variable F : finFieldType.
Local Notation q := #|F|.
Implicit Types (f h s t u v : {poly F}).

Lemma squarefreeP f : f != 0 ->
  reflect (forall h, h ^+ 2 %| f -> (size h <= 1)%N) (squarefree f).
Proof.
move=> Hf; apply: (iffP allP) => [H h Hd|H d Hd].
  case: (leqP (size h) 1) => // Hs.
  have Hle : (size h <= size f)%N.
    apply: dvdp_leq => //; apply: dvdp_trans Hd; exact: dvdp_exp.
  have := H (size h).-1; rewrite mem_iota => /(_ _)/allP H'.
  have : h \in polys F (size h).-1 by rewrite mem_polys; slia.
  by move/H'; rewrite Hd; apply; slia.
apply/allP => h; rewrite mem_polys => /eqP Hs; apply/negP => /H.
by move: Hd; rewrite mem_iota Hs; slia.
Qed.

Lemma squarefree_mulr c f : c != 0 -> f != 0 -> squarefree (c *: f) = squarefree f.
Proof.
move=> Hc Hf; have Hcf : c *: f != 0 by rewrite scaler_eq0 negb_or Hc.
by apply/(squarefreeP Hcf)/(squarefreeP Hf) => H h Hd; apply: H; move: Hd; rewrite dvdpZr.
Qed.

(** ** Lists of polynomials *)

Definition allp (n : nat) : seq {poly F} := [seq rVpoly u | u <- enum [finType of 'rV[F]_n]].

Lemma mem_allp n f : (f \in allp n) = (size f <= n)%N.
Proof.
apply/mapP/idP => [[u _ ->]|Hs]; first exact: size_poly.
by exists (poly_rV f : 'rV_n); rewrite ?mem_enum // poly_rV_K.
Qed.

Lemma allp_uniq n : uniq (allp n).
Proof. by rewrite map_inj_uniq ?enum_uniq //; apply: (can_inj (@rVpolyK _ _)). Qed.

Lemma size_allp n : size (allp n) = (q ^ n)%N.
Proof. by rewrite size_map -cardE /= card_mx mul1n. Qed.

Lemma size_polys d : size (polys F d) = (q.-1 * q ^ d)%N.
Proof.
have Hperm : perm_eq (filter (predC (fun f : {poly F} => size f == d.+1)) (allp d.+1)) (allp d).
  apply: uniq_perm; rewrite ?filter_uniq ?allp_uniq // => f.
  by rewrite mem_filter !mem_allp /=; lia.
have := count_predC (fun f : {poly F} => size f == d.+1) (allp d.+1).
rewrite -!size_filter -/(polys F d) (perm_size Hperm) !size_allp expnS => E.
have Hq := card_gt1 F.
have Eq : (q * q ^ d = q ^ d + q.-1 * q ^ d)%N by rewrite -mulSn prednK //; slia.
by move: E; rewrite Eq addnC => /addnI.
Qed.

Definition monics (n : nat) : seq {poly F} := [seq 'X^n + f | f <- allp n].

Lemma mem_monics n f : (f \in monics n) = (f \is monic) && (size f == n.+1).
Proof.
apply/mapP/andP => [[h]|[Hm /eqP Hs]].
  rewrite mem_allp => Hs ->.
  have Hlt : (size h < size ('X^n : {poly F}))%N by rewrite size_polyXn ltnS.
  by rewrite monicE lead_coefDl // lead_coefXn eqxx size_addl // size_polyXn.
exists (f - 'X^n); last by rewrite addrC subrK.
rewrite mem_allp; apply/leq_sizeP => j Hj; rewrite coefB coefXn.
move: Hj; rewrite leq_eqVlt => /orP[/eqP <-|Hj].
  by move: Hm; rewrite monicE lead_coefE Hs /= => /eqP->; rewrite eqxx subrr.
by rewrite nth_default ?Hs // gtn_eqF // subrr.
Qed.

Lemma monics_uniq n : uniq (monics n).
Proof. by rewrite map_inj_uniq ?allp_uniq //; apply: addrI. Qed.

Lemma size_monics n : size (monics n) = (q ^ n)%N.
Proof. by rewrite size_map size_allp. Qed.

Definition sqf (n : nat) : seq {poly F} := [seq f <- polys F n | squarefree f].

Lemma mem_sqf n f : (f \in sqf n) = squarefree f && (size f == n.+1).
Proof. by rewrite mem_filter mem_polys. Qed.

Lemma size_sq h : h != 0 -> size (h ^+ 2) = (size h).-1.*2.+1.
Proof.
move=> Hh; rewrite expr2 size_mul //; move: Hh; rewrite -size_poly_gt0.
by case: (size h) => // n _; lia.
Qed.

(** ** The decomposition [f = s t^2] *)

Lemma decompose f : f != 0 -> exists s t, [/\ squarefree s, s != 0, t \is monic & f = s * t ^+ 2].
Proof.
have [n] := ubnP (size f); elim: n f => // n IH f Hn Hf.
case: (boolP (squarefree f)) => Hsq.
  by exists f, 1; rewrite monic1 expr1n mulr1.
have [h Hh Hs] : exists2 h, h ^+ 2 %| f & (1 < size h)%N.
  case/allPn: Hsq => d Hd /allPn[h]; rewrite mem_polys negbK => /eqP Hs Hdvd.
  by exists h => //; move: Hd; rewrite mem_iota Hs; slia.
have [f1 Ef] : exists f1 : {poly F}, f = f1 * h ^+ 2 by apply/dvdpP.
have Hf1 : f1 != 0 by apply: contraNneq Hf => E; rewrite Ef E mul0r.
have Hh0 : h != 0 by rewrite -size_poly_gt0 (ltn_trans _ Hs).
have Hlt : (size f1 < n)%N.
  move: Hn; rewrite Ef size_mul ?expf_neq0 // size_sq //.
  move: Hs Hf1; rewrite -size_poly_gt0; move: (size f1) (size h) => a b; lia.
have [s [t [Hss Hs0 Ht Ef1]]] := IH f1 Hlt Hf1.
have Hl : lead_coef h != 0 by rewrite lead_coef_eq0.
exists ((lead_coef h) ^+ 2 *: s), (t * ((lead_coef h)^-1 *: h)); split.
- by rewrite squarefree_mulr // expf_neq0.
- by rewrite scaler_eq0 negb_or expf_neq0.
- by rewrite monicE lead_coefM lead_coefZ mulVf // mulr1 (eqP Ht).
rewrite Ef Ef1 !exprMn exprZn -!scalerAl -!scalerAr scalerA exprVn mulfV ?expf_neq0 // scale1r.
exact: (esym (mulrA _ _ _)).
Qed.

Lemma decompose_unique s t s' t' : squarefree s -> squarefree s' -> s != 0 -> s' != 0 ->
  t \is monic -> t' \is monic -> s * t ^+ 2 = s' * t' ^+ 2 -> s = s' /\ t = t'.
Proof.
move=> Hs Hs' Hs0 Hs0' Ht Ht' E.
have Ht0 := monic_neq0 Ht; have Ht0' := monic_neq0 Ht'.
pose h := gcdp t t'.
have Hh0 : h != 0 by rewrite gcdp_eq0 negb_and Ht0.
pose u := t %/ h; pose v := t' %/ h.
have Eu : t = u * h by rewrite divpK ?dvdp_gcdl.
have Ev : t' = v * h by rewrite divpK ?dvdp_gcdr.
have Huv : coprimep u v by apply: coprimep_div_gcd; rewrite Ht0.
have E2 : s * u ^+ 2 = s' * v ^+ 2.
  apply: (mulIf (_ : h ^+ 2 != 0)); first by rewrite expf_neq0.
  by rewrite -(mulrA s) -(mulrA s') -(exprMn 2 u h) -(exprMn 2 v h) -Eu -Ev.
have Hv1 : (size v <= 1)%N.
  apply: (squarefreeP Hs0 Hs).
  have Hc : coprimep (v ^+ 2) (u ^+ 2) by rewrite coprimep_expl // coprimep_expr // coprimep_sym.
  rewrite -(Gauss_dvdpl s Hc).
  by rewrite E2 dvdp_mull.
have Hu1 : (size u <= 1)%N.
  apply: (squarefreeP Hs0' Hs').
  have Hc : coprimep (u ^+ 2) (v ^+ 2) by rewrite coprimep_expl // coprimep_expr.
  rewrite -(Gauss_dvdpl s' Hc).
  by rewrite -E2 dvdp_mull.
have Hu0 : u != 0 by apply: contraNneq Ht0 => E0; rewrite Eu E0 mul0r.
have Hv0 : v != 0 by apply: contraNneq Ht0' => E0; rewrite Ev E0 mul0r.
have Hth (w : {poly F}) : w != 0 -> (size w <= 1)%N -> w * h %= h.
  move=> Hw Hw1; rewrite -{2}[h]mul1r eqp_mul2r // -size_poly_eq1.
  by rewrite eqn_leq Hw1 size_poly_gt0.
have Ett : t = t'.
  apply/eqP; rewrite -eqp_monic // Eu Ev.
  apply: eqp_trans (Hth u Hu0 Hu1) _; rewrite eqp_sym.
  exact: Hth.
split=> //; apply: (mulIf (_ : t ^+ 2 != 0)); first by rewrite expf_neq0.
by rewrite E Ett.
Qed.

Definition products (n : nat) : seq {poly F} :=
  flatten [seq [seq s * t ^+ 2 | s <- sqf (n - k.*2), t <- monics k] | k <- iota 0 (n./2.+1)].

Lemma mem_allpairs_st m k f : f \in [seq s * t ^+ 2 | s <- sqf m, t <- monics k] ->
  exists s t, [/\ s \in sqf m, t \in monics k, f = s * t ^+ 2 & size f = (m + k.*2).+1].
Proof.
move=> /allpairsP[[s t] /= [Hs Ht ->]]; exists s, t; split=> //.
move: Hs Ht; rewrite mem_sqf mem_monics => /andP[_ /eqP Hs] /andP[Hm /eqP Ht].
have Hs0 : s != 0 by rewrite -size_poly_eq0 Hs.
have Ht0 : t != 0 by rewrite monic_neq0.
rewrite size_mul ?expf_neq0 // Hs size_sq // Ht /=; lia.
Qed.

Lemma perm_products n : perm_eq (polys F n) (products n).
Proof.
apply: uniq_perm; first exact: polys_uniq.
  rewrite /products.
  have : forall k, k \in iota 0 n./2.+1 -> (k.*2 <= n)%N by move=> k; rewrite mem_iota; lia.
  have := iota_uniq 0 n./2.+1.
  elim: (iota _ _) => //= k ks IH /andP[Hk Hu] Hin; rewrite cat_uniq IH //; last first.
    by move=> j Hj; apply: Hin; rewrite inE Hj orbT.
  rewrite andbT; apply/andP; split.
    apply: allpairs_uniq; [by apply: filter_uniq; exact: polys_uniq|exact: monics_uniq|].
    move=> [s t] [s' t'] /allpairsP[[s1 t1] /= [H1 H2 [-> ->]]] /allpairsP[[s2 t2] /= [H3 H4 [-> ->]]] E.
    move: H1 H2 H3 H4; rewrite !mem_sqf !mem_monics.
    move=> /andP[A1 /eqP A2] /andP[B1 /eqP B2] /andP[C1 /eqP C2] /andP[D1 /eqP D2].
    have [||-> -> //] := decompose_unique A1 C1 _ _ B1 D1 E; by rewrite -size_poly_eq0 ?A2 ?C2.
  apply/hasPn => f /flatten_mapP[j Hj /mem_allpairs_st[s [t [Hs Ht Ef _]]]].
  apply/negP => /= /mem_allpairs_st[s' [t' [Hs' Ht' Ef' _]]].
  move: Hs Hs' Ht Ht'; rewrite !mem_sqf !mem_monics.
  move=> /andP[A1 /eqP A2] /andP[C1 /eqP C2] /andP[B1 /eqP B2] /andP[D1 /eqP D2].
  rewrite Ef in Ef'.
  have [||_ Ett] := decompose_unique A1 C1 _ _ B1 D1 Ef'; try by rewrite -size_poly_eq0 ?A2 ?C2.
  by move: Hk; rewrite (_ : k = j) ?Hj //; move: D2; rewrite -Ett B2 => -[].
move=> f; rewrite mem_polys; apply/eqP/flatten_mapP => [Hs|[k Hk /mem_allpairs_st[s [t [_ _ _ ->]]]]].
  have Hf0 : f != 0 by rewrite -size_poly_eq0 Hs.
  have [s [t [Hss Hs0 Ht Ef]]] := decompose Hf0.
  have Ht0 : t != 0 := monic_neq0 Ht.
  have St : (0 < size t)%N by rewrite size_poly_gt0.
  have Ss : (0 < size s)%N by rewrite size_poly_gt0.
  have Esz : (size s + (size t).-1.*2 = n.+1)%N.
    rewrite -Hs Ef size_mul ?expf_neq0 // size_sq //.
    by move: St Ss; move: (size s) (size t) => x y; lia.
  exists (size t).-1; first by rewrite mem_iota; move: St Ss Esz; move: (size s) (size t) => x y; lia.
  apply/allpairsP; exists (s, t); rewrite /= mem_sqf mem_monics Hss Ht /=.
  by move: St Ss Esz; move: (size s) (size t) => x y; split=> //; lia.
by move: Hk; rewrite mem_iota; lia.
Qed.

Lemma size_products n :
  size (products n) = (\sum_(k <- iota 0 n./2.+1) size (sqf (n - k.*2)) * q ^ k)%N.
Proof.
rewrite size_flatten /shape -map_comp sumnE big_map; apply: eq_bigr => k _ /=.
by rewrite size_allpairs size_monics.
Qed.

Lemma size_sqf n : size (sqf n.+2) = (q.-1 * (q ^ n.+2 - q ^ n.+1))%N.
Proof.
have E1 := perm_size (perm_products n.+2); have E0 := perm_size (perm_products n).
rewrite size_products size_polys in E1; rewrite size_products size_polys in E0.
rewrite (_ : n.+2./2.+1 = n./2.+2) // in E1.
rewrite [iota 0 _]/= big_cons subn0 muln1 in E1.
have ES : (\sum_(k <- iota 1 n./2.+1) size (sqf (n.+2 - k.*2)) * q ^ k =
           q * \sum_(k <- iota 0 n./2.+1) size (sqf (n - k.*2)) * q ^ k)%N.
  rewrite (iotaDl 1 0) big_map big_distrr /=; apply: eq_bigr => k _.
  by rewrite add1n doubleS !subSS expnS mulnCA.
rewrite ES -E0 in E1.
rewrite mulnBr E1 mulnCA -expnS; lia.
Qed.

End Squarefree.
