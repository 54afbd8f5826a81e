(** The weights: exactness of the divisions in multiplicity(), and the core identity that every
    polynomial is counted once. *)
Set Warnings "-notation-overridden,-ambiguous-paths".
From mathcomp Require Import all_ssreflect ssralg ssrnum poly matrix mxpoly finalg zify.
From Verif Require Import Res ResFacts Tables CurveIter NormalForm FinField TablesSpec CurveSpec PolyOrbit.

Set Implicit Arguments.
Unset Strict Implicit.
Unset Printing Implicit Defensive.

(** ** multiplicity() in terms of the exponents below the degree, descending *)

Section Mult.
Variables (p q : nat).

Definition head_is (x : nat) (s : seq nat) : bool := if s is y :: _ then y == x else false.

(** Number of pairs [(c,a)] preserving the normal form. *)
Definition gam (d : nat) (s : seq nat) : nat :=
  if d < p then if s is m :: l :: _ then gcdn (m - l) q.-1 else q.-1
  else if d %% p == 0 then
    if head_is d.-1 s then if head_is (d - 3) (behead s) then gcdn 3 q.-1 else q.-1
    else if head_is (d - 2) s then gcdn 2 q.-1 else q.-1
  else if head_is (d - 2) s then gcdn 2 q.-1 else q.-1.

Definition tot (d : nat) (s : seq nat) : nat :=
  if [&& p <= d, d %% p == 0 & ~~ head_is d.-1 s] then q.-1 * q.-1 else q * q.-1 * q.-1.

Lemma divexactE a b : 0 < b -> b %| a -> exists2 m, divexact a b = Ok m & m * b = a.
Proof.
move=> Hb Hd; exists (a %/ b); last exact: divnK.
by rewrite /divexact Hd; case: (b) Hb.
Qed.

Lemma rnth_rev s i : rnth (rev s) i = nth 0 s i.
Proof. by rewrite /rnth revK. Qed.

Lemma mult_gam d s : odd q -> 1 < q ->
  exists2 m, multiplicity p q (rev (d :: s)) = Ok m & 2 * m * gam d s = tot d s.
Proof.
move=> Ho Hq.
have [h Eh] : exists h, q = h.*2.+1 by exists (q./2); lia.
have Eq : q.-1 = h.*2 by rewrite Eh.
have Hh : 0 < h by lia.
have Es1 : shiftr (q * q.-1) 1 = q * h.
  by rewrite /shiftr Eq -muln2 mulnA mulnK.
have Es2 : shiftr (q.-1 * q.-1) 2 = h * h.
  by rewrite /shiftr Eq (_ : _ * _ = h * h * 2 ^ 2) ?mulnK //; lia.
have Es3 : shiftr q.-1 1 = h by rewrite /shiftr Eq -muln2 mulnK.
have Es4 : shiftr (q * q.-1 * q.-1) 2 = q * (h * h).
  by rewrite /shiftr Eq (_ : _ * _ = q * (h * h) * 2 ^ 2) ?mulnK //; lia.
have Eg2 : gcdn 2 q.-1 = 2 by rewrite Eq -muln2; apply/gcdn_idPl; apply: dvdn_mull.
rewrite /multiplicity rev_cons; case Er: (rcons (rev s) d) => [|x0 s0]; first by case: (rev s) Er.
rewrite -{}Er -rev_cons {x0 s0} !rnth_rev size_rev /=.
rewrite /gam /tot Es1 Es2 Es3 Es4 Eg2.
case: ltnP => [Hlt|Hge] /=.
  case: s => [|m [|l s]] /=; try by eexists; [reflexivity|lia].
  have [||r -> Er] := @divexactE (q * h * q.-1) (gcdn q.-1 (m - l)).
  - by rewrite gcdn_gt0 Eq; lia.
  - by apply: dvdn_mull; apply: dvdn_gcdl.
  exists r => //; rewrite -mulnA gcdnC Er; lia.
case: (d %% p == 0) => /=.
  case: s => [|x [|y s]] /=; first by eexists; [reflexivity|lia].
    rewrite subn1; case: (x == d.-1) => /=; first by eexists; [reflexivity|lia].
    by case: (x == d - 2); eexists; [reflexivity|lia|reflexivity|lia].
  rewrite subn1; case: (x == d.-1) => /=.
    case: (y == d - 3); last by eexists; [reflexivity|lia].
    have [||r -> Er] := @divexactE (q * h * q.-1) (gcdn q.-1 3).
    - by rewrite gcdn_gt0 Eq; lia.
    - by apply: dvdn_mull; apply: dvdn_gcdl.
    exists r => //; rewrite -mulnA gcdnC Er; lia.
  by case: (x == d - 2); eexists; [reflexivity|lia|reflexivity|lia].
case: s => [|x s] /=; first by eexists; [reflexivity|lia].
by case: (x == d - 2); eexists; [reflexivity|lia|reflexivity|lia].
Qed.

End Mult.

Lemma head_supp z d k : d <= k -> head_is k (supp z d) = false.
Proof.
move=> Hk; case E: (supp z d) => [|m s] //=.
by have [Hm _ _ _] := supp_consP E; lia.
Qed.

Lemma head_suppS z d : head_is d (supp z d.+1) = ~~ z d.
Proof. by rewrite suppS; case: (z d) => /=; rewrite ?head_supp ?eqxx. Qed.

Import GRing.Theory.
Local Open Scope ring_scope.

Section Core.
Variable F : finFieldType.
Local Notation q := #|F|.
Implicit Types (a b c x y : F) (f : {poly F}).
Variables (g : F) (p : nat).
Hypothesis Hg : generator g.
Hypothesis Hp : p \in [char F].
Hypothesis Hp2 : p != 2%N.

Definition zf f (i : nat) : bool := f`_i == 0.
Definition ofn f (i : nat) : bool := f`_i == 1.
Definition rf f (n i : nat) : bool := is_rep g n f`_i.
Definition nfpoly (d : nat) f : bool := nf p d (zf f) (ofn f) (rf f).

(** The support as computed by rhs_support, ascending. *)
Definition psupp f : seq nat := [seq i <- iota 0 (size f) | f`_i != 0].
Definition pmult f : nat := if multiplicity p q (psupp f) is Ok m then m else 0.

Lemma two_neq0 : (2%:R : F) != 0.
Proof.
rewrite -(dvdn_charf Hp); have Hpr := charf_prime Hp.
by rewrite dvdn_prime2 // (negbTE Hp2).
Qed.

Lemma odd_q : odd q.
Proof.
have Hq := card_gt1 F; case E: (odd q) => //.
have := expf_pred (_ : (- 1 : F) != 0); rewrite oppr_eq0 oner_eq0 => /(_ isT).
rewrite -signr_odd (_ : odd q.-1) ?expr1; last by slia.
move/eqP; rewrite eq_sym -addr_eq0 -[1 + 1]/(2%:R) => H2.
by rewrite (negbTE two_neq0) in H2.
Qed.

Lemma gcd2 : gcdn 2 q.-1 = 2%N.
Proof. by apply/gcdn_idPl; have := odd_q; have := card_gt1 F; rewrite dvdn2; slia. Qed.

Lemma lead_neq0 f d : size f = d.+1 -> f`_d != 0.
Proof. by move=> Hs; rewrite -[d]/(d.+1.-1) -Hs -lead_coefE lead_coef_eq0 -size_poly_eq0 Hs. Qed.

Lemma psuppE f d : size f = d.+1 -> psupp f = rev (d :: supp (zf f) d).
Proof.
move=> Hs; rewrite /psupp Hs.
have Hl : ~~ zf f d := lead_neq0 Hs.
have -> : d :: supp (zf f) d = supp (zf f) d.+1 by rewrite suppS (negbTE Hl).
by rewrite /supp -filter_rev revK.
Qed.

Lemma zf_scaled c a f : c != 0 -> a != 0 -> zf (scaled c a f) =1 zf f.
Proof.
move=> Hc Ha i; rewrite /zf coef_scaled !mulf_eq0 (negbTE Hc) (expf_eq0 a) (negbTE Ha).
by rewrite andbF orbF.
Qed.

Lemma pmult_scaled c a f : c != 0 -> a != 0 -> pmult (scaled c a f) = pmult f.
Proof.
move=> Hc Ha; rewrite /pmult /psupp size_scaled //.
by rewrite (eq_filter (a2 := fun i => f`_i != 0)) // => i; rewrite -!/(zf _ i) zf_scaled.
Qed.

Definition zcond (d : nat) f : bool :=
  if (d < p)%N then zf f d.-1
  else if (d %% p == 0)%N then zf f d.-1 || zf f (d - 2) else zf f d.-1.

Definition npairs d f : nat :=
  (\sum_(a : F | a != 0%R) \sum_(c : F | c != 0%R) (nfpoly d (scaled c a f) : nat))%N.

Lemma nf_scaled d c a f : (2 < d)%N -> c != 0 -> a != 0 ->
  nfpoly d (scaled c a f) =
  nf p d (zf f) (fun i => c * (f`_i * a ^+ i) == 1) (fun n i => is_rep g n (c * (f`_i * a ^+ i))).
Proof.
move=> Hd Hc Ha; apply: eq_nf => // [i _|i _|n i _]; first exact: zf_scaled.
  by rewrite /ofn coef_scaled.
by rewrite /rf coef_scaled.
Qed.

Lemma npairsE d f : (2 < d)%N -> size f = d.+1 ->
  npairs d f = (zcond d f * gam p q d (supp (zf f) d))%N.
Proof.
move=> Hd Hs.
have Hl : zf f d = false.
  exact/negbTE/(lead_neq0 Hs).
have Hl' : f`_d != 0 by rewrite -/(zf f d) Hl.
rewrite /npairs.
under eq_bigr => a Ha do under eq_bigr => c Hc do rewrite nf_scaled //.
rewrite /nf Hl /= /zcond /gam.
case: ifP => _.
  case Hz1: (zf f d.-1) => /=; last by rewrite mul0n big1 // => a _; rewrite big1.
  rewrite mul1n; case E: (supp (zf f) d) => [|m [|l s]]; first exact: pairs1.
    by have [_ _ Hm _] := supp_consP E; apply: pairs1.
  have [_ _ Hm E'] := supp_consP E; have [Hlm _ Hl0 _] := supp_consP (esym E').
  exact: (pairs2 Hg).
case: d Hd Hs Hl Hl' => [|[|[|d]]] // _ Hs Hl Hl'.
have E2 : (d.+3 - 2 = d.+1)%N by lia.
have E3 : (d.+3 - 3 = d)%N by lia.
have P2 := @pairs2 _ _ Hg f`_d.+3 f`_d.+1 d.+3 d.+1 (leqnSn _) Hl'.
have P3 := @pairs2 _ _ Hg f`_d.+3 f`_d d.+3 d.
rewrite (_ : d.+3 - d.+1 = 2)%N in P2; last by lia.
rewrite (_ : d.+3 - d = 3)%N in P3; last by lia.
rewrite /= E2 E3.
have Hh2 : head_is d.+2 (supp (zf f) d.+3) = ~~ zf f d.+2 by rewrite head_suppS.
have Pfree (Q : bool) : Q -> (\sum_(a : F | a != 0%R) \sum_(c : F | c != 0%R)
     ((c * (f`_d.+3 * a ^+ d.+3) == 1)%R && Q : nat) = q.-1)%N.
  move=> ->; rewrite -(pairs1 d.+3 Hl').
  by apply: eq_bigr => a _; apply: eq_bigr => c _; rewrite andbT.
have Hh1 : zf f d.+2 -> head_is d.+1 (supp (zf f) d.+3) = ~~ zf f d.+1.
  by move=> Hz; rewrite suppS Hz head_suppS.
case: ifP => _.
  rewrite Hh2; case Hz2: (zf f d.+2) => /=.
    rewrite mul1n Hh1 //; case Hz1: (zf f d.+1) => /=; first exact: Pfree.
    by apply: P2; apply/negP; rewrite -/(zf f d.+1) Hz1.
  case Hz1: (zf f d.+1) => /=; last first.
    by rewrite mul0n big1 // => a _; rewrite big1 // => c _; rewrite andbF.
  rewrite mul1n suppS Hz2 /= suppS Hz1 head_suppS.
  case Hz0: (zf f d) => /=; first exact: Pfree.
  apply: P3 => //; first by rewrite -addn3 -addn1 leq_add2l.
  by apply/negP; rewrite -/(zf f d) Hz0.
case Hz2: (zf f d.+2) => /=; last first.
  by rewrite mul0n big1 // => a _; rewrite big1 // => c _; rewrite andbF.
rewrite mul1n Hh1 //; case Hz1: (zf f d.+1) => /=; first exact: Pfree.
by apply: P2; apply/negP; rewrite -/(zf f d.+1) Hz1.
Qed.

Lemma pmult_ok d f : size f = d.+1 ->
  multiplicity p q (psupp f) = Ok (pmult f) /\
  (2 * pmult f * gam p q d (supp (zf f) d) = tot p q d (supp (zf f) d))%N.
Proof.
move=> Hs; rewrite /pmult (psuppE Hs).
by have [m -> E] := mult_gam p d (supp (zf f) d) odd_q (card_gt1 F).
Qed.

Definition wsum d f : nat :=
  (\sum_(a : F | a != 0%R) \sum_(c : F | c != 0%R)
     (nfpoly d (scaled c a f) * (2 * pmult (scaled c a f))))%N.

Lemma wsumE d f : (2 < d)%N -> size f = d.+1 ->
  wsum d f = (zcond d f * tot p q d (supp (zf f) d))%N.
Proof.
move=> Hd Hs; have [_ <-] := pmult_ok Hs.
rewrite mulnCA -npairsE // /npairs big_distrr /=.
apply: eq_bigr => a Ha; rewrite big_distrr /=; apply: eq_bigr => c Hc.
by rewrite pmult_scaled // mulnC.
Qed.

(** Every polynomial is hit by the same total weight. *)
Lemma core_identity d f : (2 < d)%N -> size f = d.+1 ->
  (\sum_(b : F) \sum_(a : F | a != 0%R) \sum_(c : F | c != 0%R)
     (nfpoly d (affine c a b f) * (2 * pmult (affine c a b f))) = q * q.-1 * q.-1)%N.
Proof.
move=> Hd Hs.
have Hpr := charf_prime Hp.
have Hl' : f`_d != 0.
  exact: lead_neq0.
rewrite (eq_bigr (fun b => wsum d (f \Po ('X + b%:P)))); last first.
  by move=> b _; apply: eq_bigr => a _; apply: eq_bigr => c _; rewrite affineE.
rewrite (eq_bigr (fun b => (zcond d (f \Po ('X + b%:P)) *
   tot p q d (supp (zf (f \Po ('X + b%:P))) d))%N)); last first.
  by move=> b _; apply: wsumE => //; rewrite size_shift.
case: d Hd Hs Hl' => [|[|[|d]]] // Hd Hs Hl'.
rewrite /zcond /tot /=.
have E2 : (d.+3 - 2 = d.+1)%N by lia.
rewrite E2.
have S1 b := shift_1 b Hs.
have dn0 : ~~ (d.+3 %% p == 0)%N -> (d.+3)%:R * f`_d.+3 != 0.
  by move=> Hnd; rewrite mulf_neq0 // -(dvdn_charf Hp).
have Huniq : ~~ (d.+3 %% p == 0)%N ->
   (\sum_(b : F) (zf (f \Po ('X + b%:P)) d.+2 * (q * q.-1 * q.-1)) = q * q.-1 * q.-1)%N.
  move=> Hnd; rewrite -big_distrl /= -[RHS]mul1n; congr (_ * _)%N.
  rewrite -(lin_unique f`_d.+2 (dn0 Hnd)); apply: eq_bigr => b _.
  by rewrite /zf S1.
case: ltnP => Hlt /=.
  by apply: Huniq; rewrite modn_small.
case Hdiv: (d.+3 %% p == 0)%N => /=; last by apply: Huniq; rewrite Hdiv.
have Hd0 : (d.+3)%:R = 0 :> F by apply/eqP; rewrite -(dvdn_charf Hp) /dvdn Hdiv.
have Z2 b : zf (f \Po ('X + b%:P)) d.+2 = zf f d.+2.
  by rewrite /zf S1 Hd0 !mul0r addr0.
have HC : ('C(d.+3, 2))%:R = 0 :> F.
  apply: (mulfI two_neq0); rewrite mulr0 -natrM.
  have -> : (2 * 'C(d.+3, 2) = d.+3 * d.+2)%N.
    by rewrite mulnC -[X in (_ * X)%N]/(2`!) bin_ffact /= !ffactnS ffactn0 muln1.
  by rewrite natrM Hd0 mul0r.
have Z1 b : zf (f \Po ('X + b%:P)) d.+1 = (f`_d.+1 + (d.+2)%:R * f`_d.+2 * b == 0).
  by rewrite /zf (shift_2 b Hs) HC !mul0r addr0.
have Hd2 : (d.+2)%:R = -1 :> F.
  by apply/eqP; rewrite -subr_eq0 opprK -[_ + 1]/(_ + 1%:R) -natrD addn1 Hd0.
case Hz2: (zf f d.+2).
  under eq_bigr => b _ do rewrite Z2 Hz2 head_suppS Z2 Hz2 /= mul1n.
  by rewrite sum_nat_const mulnA.
under eq_bigr => b _ do rewrite Z2 Hz2 head_suppS Z2 Hz2 Z1 /=.
rewrite -big_distrl /= lin_unique ?mul1n //.
by rewrite Hd2 mulN1r oppr_eq0 -/(zf f d.+2) Hz2.
Qed.

(** Every polynomial is equivalent to a normal form. *)
Lemma equivalent d f : (2 < d)%N -> size f = d.+1 ->
  exists c a b (e : {poly F}), [/\ c != 0, a != 0, size e = d.+1, nfpoly d e & f = affine c a b e].
Proof.
move=> Hd Hs; have := core_identity Hd Hs.
have Hpos : (0 < q * q.-1 * q.-1)%N by rewrite !muln_gt0 pred_q_gt0; have := card_gt1 F; slia.
case: (boolP [exists b, exists a, exists c, [&& a != 0, c != 0 & nfpoly d (affine c a b f)]]).
  move=> /existsP[b /existsP[a /existsP[c /and3P[Ha Hc Hnf]]]] _.
  exists c^-1, a^-1, (- (a^-1 * b)), (affine c a b f).
  by rewrite !invr_eq0 size_affine // affine_cancel.
rewrite negb_exists => /forallP Hn; rewrite big1; first by move=> E; rewrite -E in Hpos.
move=> b _; have := Hn b; rewrite negb_exists => /forallP {}Hn.
rewrite big1 // => a Ha; have := Hn a; rewrite negb_exists => /forallP {}Hn.
by rewrite big1 // => c Hc; have := Hn c; rewrite Ha Hc /= => /negbTE ->.
Qed.

(** ** Squares *)

Definition is_square x : bool := [exists s, s ^+ 2 == x].

Lemma square_genX i : is_square (g ^+ i) = ~~ odd i.
Proof.
have := dvdn_nth_power 2 i Hg; rewrite gcd2 dvdn2 => -[H1 H2].
apply/existsP/idP => [[s /eqP E]|H].
  apply: H1; exists s => //; apply/eqP => E0; move: E; rewrite E0 expr0n /= => E.
  by have := genX_neq0 Hg i; rewrite -E eqxx.
by have [s _ ->] := H2 H; exists s.
Qed.

Lemma square_mulg c : c != 0 -> is_square (g * c) = ~~ is_square c.
Proof. by move=> Hc; have [i _ ->] := dlog Hg Hc; rewrite -exprS !square_genX. Qed.

Lemma sum_twisted (A B : nat) :
  (2 * (\sum_(c : F | c != 0%R) (if is_square c then A else B)) = q.-1 * (A + B))%N.
Proof.
have Hg0 := gen_neq0 Hg.
rewrite mul2n -addnn {2}(reindex_onto (fun c => g * c) (fun c => g^-1 * c)) /=; last first.
  by move=> c _; rewrite mulrA mulfV // mul1r.
rewrite [X in (_ + X)%N](eq_bigl [pred c : F | c != 0]); last first.
  by move=> c; rewrite mulf_eq0 (negbTE Hg0) /= mulrA mulVf // mul1r eqxx andbT.
rewrite -big_split /= (sum_eq_const (k := (A + B)%N)) ?card_nz //.
by move=> c Hc; rewrite square_mulg //; case: is_square => //=; rewrite addnC.
Qed.

(** ** Double counting *)

Lemma count_as_sum (T : Type) (P : pred T) (l : seq T) : count P l = (\sum_(x <- l) (P x : nat))%N.
Proof. by elim: l => [|x l IH] /=; rewrite ?big_nil // big_cons IH. Qed.

Lemma weighted_count (K : eqType) (key : {poly F} -> K) (tw : K -> K) d :
  (2 < d)%N -> involutive tw ->
  (forall f c a b, size f = d.+1 -> c != 0 -> a != 0 -> key (affine (c ^+ 2) a b f) = key f) ->
  (forall f c, size f = d.+1 -> c != 0 -> (forall s, s ^+ 2 != c) -> key (c *: f) = tw (key f)) ->
  forall k, count (fun f => key f == k) (polys F d) =
    (\sum_(f <- polys F d) nfpoly d f * pmult f * ((key f == k) + (tw (key f) == k)))%N.
Proof.
move=> Hd Htw Hsq Hns k.
have Hkey f c a b : size f = d.+1 -> c != 0 -> a != 0 ->
    (key f == k) = ((if is_square c then key (affine c a b f) else tw (key (affine c a b f))) == k).
  move=> Hs Hc Ha; case: ifP => [/existsP[s /eqP Es]|/negbT].
    rewrite -Es Hsq //; apply/eqP => E0; move: Hc; rewrite -Es E0 expr0n /=.
    by rewrite eqxx.
  rewrite negb_exists => /forallP Hn.
  have -> : affine c a b f = c *: affine (1 ^+ 2) a b f by rewrite /affine expr1n scale1r.
  by rewrite Hns ?Htw ?Hsq ?size_affine ?expr1n ?oner_neq0.
have Hpos : (0 < q * q.-1 * q.-1)%N by rewrite !muln_gt0 pred_q_gt0; have := card_gt1 F; slia.
apply/eqP; rewrite -(eqn_pmul2l Hpos); apply/eqP.
rewrite count_as_sum big_distrr /=.
transitivity (\sum_(f <- polys F d) \sum_(b : F) \sum_(a : F | a != 0%R) \sum_(c : F | c != 0%R)
   (nfpoly d (affine c a b f) * (2 * pmult (affine c a b f))) *
   ((if is_square c then key (affine c a b f) else tw (key (affine c a b f))) == k))%N.
  rewrite !big_seq; apply: eq_bigr => f; rewrite mem_polys => /eqP Hs.
  rewrite -(core_identity Hd Hs) big_distrl /=; apply: eq_bigr => b _.
  rewrite big_distrl /=; apply: eq_bigr => a Ha.
  rewrite big_distrl /=; apply: eq_bigr => c Hc.
  by rewrite (Hkey f c a b).
transitivity (\sum_(b : F) \sum_(a : F | a != 0%R) \sum_(c : F | c != 0%R) \sum_(f <- polys F d)
   (nfpoly d f * (2 * pmult f)) * ((if is_square c then key f else tw (key f)) == k))%N.
  rewrite exchange_big /=; apply: eq_bigr => b _.
  rewrite exchange_big /=; apply: eq_bigr => a Ha.
  rewrite exchange_big /=; apply: eq_bigr => c Hc.
  by rewrite -[RHS](perm_big _ (perm_affine b d Hc Ha)) big_map.
transitivity (q * (q.-1 * (\sum_(c : F | c != 0%R) \sum_(f <- polys F d)
   (nfpoly d f * (2 * pmult f)) * ((if is_square c then key f else tw (key f)) == k))))%N.
  by rewrite (sum_eq_const (fun _ _ => erefl)) (sum_eq_const (fun _ _ => erefl)) card_nz.
rewrite exchange_big /= -!mulnA; congr (_ * (_ * _))%N.
rewrite big_distrr /=; apply: eq_bigr => f _.
rewrite -big_distrr /=.
have E := sum_twisted (key f == k) (tw (key f) == k).
set X := (\sum_(c | _) _)%N.
have EX : X = (\sum_(c : F | c != 0%R) (if is_square c then (key f == k : nat) else (tw (key f) == k)))%N.
  by apply: eq_bigr => c _; case: ifP.
rewrite -EX in E; rewrite [(2 * _)%N]mulnC mulnA -[LHS]mulnA E.
by rewrite !mulnA; congr (_ * _)%N; rewrite mulnC mulnA.
Qed.

End Core.
