(** Orbit counting for the group of substitutions f(x) |-> c f(ax+b): the weights of
    CurveIterator::multiplicity count every polynomial once. *)
Set Warnings "-notation-overridden,-ambiguous-paths".
From mathcomp Require Import all_ssreflect ssralg ssrnum poly matrix mxpoly finalg zify.
From Verif Require Import Res ResFacts Tables CurveIter NormalForm FinField TablesSpec CurveSpec.

Set Implicit Arguments.
Unset Strict Implicit.
Unset Printing Implicit Defensive.
Import GRing.Theory.
Local Open Scope ring_scope.

Section Orbit.
Variable F : finFieldType.
Local Notation q := #|F|.
Implicit Types (a b c x y : F) (f : {poly F}).

(** ** The polynomials of a given degree *)

Lemma mem_polys d (f : {poly F}) : (f \in polys F d) = (size f == d.+1).
Proof.
rewrite mem_filter; case: eqP => //= Hs; apply/mapP.
by exists (poly_rV f : 'rV_d.+1); rewrite ?mem_enum // poly_rV_K // Hs.
Qed.

Lemma polys_uniq d : uniq (polys F d).
Proof.
rewrite filter_uniq // map_inj_uniq ?enum_uniq //.
exact: (can_inj (@rVpolyK _ _)).
Qed.

(** ** Coefficients after a substitution *)

Lemma coef_comp_scale (f : {poly F}) a n : (f \Po (a *: 'X))`_n = f`_n * a ^+ n.
Proof.
rewrite comp_polyE coef_sum.
under eq_bigr => i _ do rewrite exprZn !coefZ coefXn mulrA.
case: (ltnP n (size f)) => Hn.
  rewrite (bigD1 (Ordinal Hn)) //= eqxx mulr1 big1 ?addr0 // => i Hi.
  by rewrite (negbTE (_ : n != i)) ?mulr0 // eq_sym.
rewrite big1; first by rewrite nth_default ?mul0r.
by move=> i _; rewrite (negbTE (_ : n != i)) ?mulr0 //; have := ltn_ord i; lia.
Qed.

Lemma coef_XDpow (b : F) i n : (('X + b%:P) ^+ i)`_n = b ^+ (i - n) *+ 'C(i, n).
Proof.
rewrite addrC exprDn coef_sum.
under eq_bigr => j _ do rewrite coefMn -rmorphX /= coefCM coefXn.
case: (ltnP i n) => Hn.
  rewrite bin_small // mulr0n big1 // => j _.
  by rewrite (negbTE (_ : n != j)) ?mulr0 ?mul0rn //; have := ltn_ord j; lia.
have Hn' : (n < i.+1)%N by lia.
rewrite (bigD1 (Ordinal Hn')) //= eqxx mulr1 big1 ?addr0 // => j Hj.
by rewrite (negbTE (_ : n != j)) ?mulr0 ?mul0rn // eq_sym.
Qed.

Lemma coef_shift (f : {poly F}) b n :
  (f \Po ('X + b%:P))`_n = \sum_(i < size f) f`_i * (b ^+ (i - n) *+ 'C(i, n)).
Proof.
by rewrite comp_polyE coef_sum; apply: eq_bigr => i _; rewrite coefZ coef_XDpow.
Qed.

Lemma low_terms (f : {poly F}) b n k : (k <= n)%N ->
  \sum_(i < k) f`_i * (b ^+ (i - n) *+ 'C(i, n)) = 0.
Proof.
by move=> Hk; apply: big1 => i _; rewrite bin_small ?mulr0n ?mulr0 //; have := ltn_ord i; lia.
Qed.

Lemma shift_lead (f : {poly F}) b d : size f = d.+1 -> (f \Po ('X + b%:P))`_d = f`_d.
Proof.
move=> Hs; rewrite coef_shift Hs big_ord_recr /= low_terms // add0r.
by rewrite subnn binn expr0 mulr1n mulr1.
Qed.

Lemma shift_1 (f : {poly F}) b d : size f = d.+2 ->
  (f \Po ('X + b%:P))`_d = f`_d + (d.+1)%:R * f`_d.+1 * b.
Proof.
move=> Hs; rewrite coef_shift Hs !big_ord_recr /= low_terms // add0r.
rewrite subnn binn expr0 mulr1n mulr1 subSn // subnn expr1 binSn.
by rewrite mulrnAr -mulr_natl -mulrA.
Qed.

Lemma shift_2 (f : {poly F}) b d : size f = d.+3 ->
  (f \Po ('X + b%:P))`_d =
    f`_d + (d.+1)%:R * f`_d.+1 * b + ('C(d.+2, 2))%:R * f`_d.+2 * b ^+ 2.
Proof.
move=> Hs; rewrite coef_shift Hs !big_ord_recr /= low_terms // add0r.
rewrite subnn binn expr0 mulr1n mulr1 subSn // subnn expr1 binSn.
have -> : (d.+2 - d = 2)%N by lia.
have -> : 'C(d.+2, d) = 'C(d.+2, 2) by rewrite -(@bin_sub d.+2 d); [have -> : (d.+2 - d = 2)%N by lia|lia].
by rewrite !mulrnAr -[(f`_d.+1 * _) *+ _]mulr_natl -[(f`_d.+2 * _) *+ _]mulr_natl !mulrA.
Qed.

(** ** Affine substitutions *)

Definition scaled (c a : F) (f : {poly F}) : {poly F} := c *: (f \Po (a *: 'X)).

Lemma affineE c a b f : affine c a b f = scaled c a (f \Po ('X + b%:P)).
Proof.
rewrite /affine /scaled -comp_polyA; congr (_ *: (_ \Po _)).
by rewrite comp_polyD comp_polyX comp_polyC.
Qed.

Lemma coef_scaled c a f n : (scaled c a f)`_n = c * (f`_n * a ^+ n).
Proof. by rewrite coefZ coef_comp_scale. Qed.

Lemma size_affine c a b f : c != 0 -> a != 0 -> size (affine c a b f) = size f.
Proof.
move=> Hc Ha; rewrite size_scale // size_comp_poly2 //.
rewrite size_addl ?size_scale ?size_polyX //.
exact: leq_ltn_trans (size_polyC_leq1 b) _.
Qed.

Lemma size_shift b (f : {poly F}) : size (f \Po ('X + b%:P)) = size f.
Proof. by rewrite size_comp_poly2 ?size_XaddC. Qed.

Lemma size_scaled c a f : c != 0 -> a != 0 -> size (scaled c a f) = size f.
Proof. by move=> Hc Ha; rewrite size_scale // size_comp_poly2 // size_scale ?size_polyX. Qed.

Lemma affine_inj c a b : c != 0 -> a != 0 -> injective (affine c a b).
Proof.
move=> Hc Ha f f' E; apply/eqP; rewrite -subr_eq0 -size_poly_eq0 -(size_affine b _ Hc Ha).
by rewrite /affine comp_polyB scalerBr -/(affine c a b f) E subrr size_poly0.
Qed.

Lemma perm_affine c a b d : c != 0 -> a != 0 ->
  perm_eq [seq affine c a b f | f <- polys F d] (polys F d).
Proof.
move=> Hc Ha; have Hu : uniq [seq affine c a b f | f <- polys F d].
  by rewrite map_inj_uniq ?polys_uniq //; apply: affine_inj.
apply: uniq_perm => //; first exact: polys_uniq.
have [|//] := uniq_min_size Hu _ (eq_leq (esym (size_map _ _))) => f /mapP[f' Hf' ->].
by rewrite mem_polys size_affine // -mem_polys.
Qed.

Lemma affine_cancel c a b f : c != 0 -> a != 0 ->
  affine c^-1 a^-1 (- (a^-1 * b)) (affine c a b f) = f.
Proof.
move=> Hc Ha; rewrite /affine comp_polyZ scalerA mulVf // scale1r -comp_polyA.
have -> : (a *: 'X + b%:P) \Po (a^-1 *: 'X + (- (a^-1 * b))%:P) = 'X.
  rewrite comp_polyD comp_polyZ comp_polyX comp_polyC scalerDr scalerA mulfV // scale1r.
  by rewrite -addrA -[a *: _%:P]mul_polyC -polyCM mulrN mulrA mulfV // mul1r -polyCD addNr addr0.
by rewrite comp_polyXr.
Qed.

(** ** Counting parameters *)

Lemma sum_bool (T : finType) (P : pred T) : (\sum_(x : T) (P x : nat) = #|P|)%N.
Proof. by rewrite -sum1_card [RHS]big_mkcond; apply: eq_bigr => x _; rewrite -topredE /=; case: (P x). Qed.

Lemma sum_eq_const (I : finType) (P : pred I) (f : I -> nat) k : (forall i, P i -> f i = k) ->
  (\sum_(i | P i) f i = #|P| * k)%N.
Proof. by move=> H; rewrite (eq_bigr (fun=> k)) // sum_nat_const. Qed.

Lemma card_nz : #|[pred x : F | x != 0]| = q.-1.
Proof.
by have := cardC1 (0 : F); rewrite (eq_card (B := [pred x : F | x != 0])).
Qed.

Lemma lin_unique (u v : F) : u != 0 -> (\sum_(b : F) ((v + u * b == 0)%R : nat) = 1)%N.
Proof.
move=> Hu; rewrite (bigD1 (- (u^-1 * v))) //= mulrN mulrA mulfV // mul1r subrr eqxx big1 //.
move=> b Hb; case: eqP => // E; case/eqP: Hb.
by apply: (mulfI Hu); rewrite mulrN mulrA mulfV // mul1r; apply/eqP; rewrite -addr_eq0 addrC E.
Qed.

Lemma inner_c (x : F) (P : pred F) : x != 0 ->
  (\sum_(c : F | c != 0%R) ((c * x == 1)%R && P c : nat) = P x^-1)%N.
Proof.
move=> Hx; rewrite (bigD1 x^-1) ?invr_eq0 //= mulVf // eqxx /= big1 ?addn0 //.
move=> c /andP[Hc Hne]; case: eqP => // E; case/eqP: Hne.
by apply: (mulIf Hx); rewrite E mulVf.
Qed.

Lemma pairs1 (x : F) m : x != 0 ->
  (\sum_(a : F | a != 0%R) \sum_(c : F | c != 0%R) ((c * (x * a ^+ m) == 1)%R : nat) = q.-1)%N.
Proof.
move=> Hx; rewrite (sum_eq_const (k := 1)); first by rewrite muln1 card_nz.
move=> a Ha; rewrite -[RHS](@inner_c (x * a ^+ m) predT) ?mulf_neq0 ?expf_neq0 //.
by apply: eq_bigr => c _; rewrite andbT.
Qed.

Section WithGenerator.
Variable g : F.
Hypothesis Hg : generator g.

Lemma repP n (y : F) :
  reflect (exists2 i, (i < gcdn n q.-1)%N & y = g ^+ i) (is_rep g n y).
Proof.
apply: (iffP hasP) => [[i]|[i Hi ->]].
  by rewrite mem_iota => Hi /eqP <-; exists i.
by exists i; rewrite ?mem_iota.
Qed.

(** [gcd n (q-1)] elements [a] bring [y / a^n] to a representative. *)
Lemma card_reps n (y : F) : y != 0 ->
  (\sum_(a : F | a != 0%R) (is_rep g n (y / a ^+ n)%R : nat) = gcdn n q.-1)%N.
Proof.
move=> Hy.
set N := fun y : F => (\sum_(a : F | a != 0%R) (is_rep g n (y / a ^+ n)%R : nat))%N.
set K := (\sum_(a : F | a != 0%R) ((a ^+ n == 1)%R : nat))%N.
have HN z : z != 0 -> N z = K.
  move=> Hz; have [i0 [[Hi0 [y0 Hy0 Ez]] Hun]] := coset_unique n Hg Hz.
  rewrite /N /K (reindex_onto (fun a => y0 * a) (fun a => y0^-1 * a)) /=; last first.
    by move=> a _; rewrite mulrA mulfV // mul1r.
  apply: eq_big => a.
    rewrite mulf_eq0 (negbTE Hy0) /= mulrA mulVf // mul1r eqxx andbT.
    by [].
  move=> /andP[Ha _]; have {}Ha : a != 0 by move: Ha; rewrite mulf_eq0 negb_or => /andP[].
  congr nat_of_bool; apply/repP/eqP => [[i Hi E]|E].
    have Hii : i0 = i.
      apply: Hun; split=> //; exists (y0 * a); first by rewrite mulf_neq0.
      by rewrite -E mulrC divfK // expf_neq0 // mulf_neq0.
    move: E; rewrite -Hii Ez exprMn => E.
    have H0 : g ^+ i0 != 0 by apply: genX_neq0.
    have Han : a ^+ n != 0 by rewrite expf_neq0.
    have Hyn : y0 ^+ n != 0 by rewrite expf_neq0.
    move: E; rewrite invfM.
    rewrite [y0 ^+ n * g ^+ i0]mulrC -mulrA [y0 ^+ n * _]mulrA mulfV // mul1r.
    move=> E; apply: (mulfI H0); rewrite mulr1 -{1}E divfK //.
  exists i0 => //; rewrite exprMn E mulr1 Ez mulrAC mulfV ?mul1r //.
  by rewrite expf_neq0.
have Etot : (\sum_(z : F | z != 0%R) N z = q.-1 * gcdn n q.-1)%N.
  rewrite /N exchange_big /= (sum_eq_const (k := gcdn n q.-1)) ?card_nz // => a Ha.
  have Han : a ^+ n != 0 by rewrite expf_neq0.
  rewrite (reindex_onto (fun z => z * a ^+ n) (fun z => z / a ^+ n)) /=; last first.
    by move=> z _; rewrite divfK.
  rewrite (eq_bigl [pred z : F | z != 0]); last first.
    by move=> z; rewrite mulf_eq0 (negbTE Han) orbF mulfK // eqxx andbT.
  rewrite (eq_bigr (fun z => is_rep g n z : nat)); last by move=> z _; rewrite mulfK.
  transitivity (\sum_(z : F) (z \in [seq (g ^+ i)%R | i <- iota 0 (gcdn n q.-1)]))%N.
    rewrite [RHS](bigID [pred z : F | z != 0]) /= [X in (_ + X)%N]big1 ?addn0; last first.
      move=> z; rewrite negbK => /eqP->; case: mapP => // [[i _ E]].
      by have := genX_neq0 Hg i; rewrite -E eqxx.
    apply: eq_bigr => z _; congr nat_of_bool; apply/repP/mapP => -[i Hi E].
      by exists i; rewrite ?mem_iota.
    by exists i => //; move: Hi; rewrite mem_iota.
  rewrite sum_bool.
  have Hu : uniq [seq g ^+ i | i <- iota 0 (gcdn n q.-1)].
    rewrite map_inj_in_uniq ?iota_uniq // => i j; rewrite !mem_iota => Hi Hj.
    apply: (genX_inj Hg).
      by have := dvdn_leq (pred_q_gt0 F) (dvdn_gcdr n q.-1); slia.
    by have := dvdn_leq (pred_q_gt0 F) (dvdn_gcdr n q.-1); slia.
  by rewrite (card_uniqP Hu) size_map size_iota.
move: Etot; rewrite (sum_eq_const (k := K)) // card_nz => /eqP.
rewrite eqn_pmul2l ?pred_q_gt0 // => /eqP <-.
by rewrite -(HN y Hy).
Qed.

Lemma pairs2 (x y : F) m l : (l < m)%N -> x != 0 -> y != 0 ->
  (\sum_(a : F | a != 0%R) \sum_(c : F | c != 0%R)
     ((c * (x * a ^+ m) == 1)%R && is_rep g (m - l) (c * (y * a ^+ l))%R : nat)
   = gcdn (m - l) q.-1)%N.
Proof.
move=> Hl Hx Hy.
have Hxy : y / x != 0 by rewrite mulf_neq0 ?invr_eq0.
rewrite -(card_reps (m - l) Hxy); apply: eq_bigr => a Ha.
rewrite (@inner_c (x * a ^+ m) (fun c => is_rep g (m - l) (c * (y * a ^+ l)))); last first.
  by rewrite mulf_neq0 ?expf_neq0.
congr (nat_of_bool (is_rep g _ _)).
rewrite -{1}(subnK (ltnW Hl)) exprD !invfM.
have Hal : a ^+ l != 0 by rewrite expf_neq0.
rewrite [y * _]mulrC !mulrA divfK //.
by rewrite -mulrA mulrC mulrA.
Qed.

End WithGenerator.
End Orbit.
