(** Points over extensions of a finite field as fixed points of powers of one permutation. *)
Set Warnings "-notation-overridden,-ambiguous-paths".
From mathcomp Require Import all_ssreflect ssralg ssrnum ssrint poly polydiv finalg finfield zify.
From Verif Require Import FinField FieldExt CurveSpec RamSpec PointSpec PointCount PointMath PolyOrbit Squarefree Irred KeyMath TwistProofs.

Set Implicit Arguments.
Unset Strict Implicit.
Unset Printing Implicit Defensive.

(** ** Periods *)
Section Periods.
Variables (T : finType) (f : T -> T) (X : {set T}).
Hypothesis f_inj : injective f.
Hypothesis HX : forall x, (f x \in X) = (x \in X).

Lemma iter_mul_order x m : iter (m * order f x) f x = x.
Proof. by elim: m => [|m IH] //; rewrite mulSn addnC iterD iter_order. Qed.

Lemma iter_fix x j : (iter j f x == x) = (order f x %| j).
Proof.
have Ho : 0 < order f x by exact: order_gt0.
rewrite {1}(divn_eq j (order f x)) addnC iterD iter_mul_order.
have Hlt : j %% order f x < order f x by rewrite ltn_mod.
apply/eqP/idP => [E|/eqP->] //; have := findex_iter Hlt; rewrite E findex0 => /esym H0.
by rewrite /dvdn H0.
Qed.

(** The orbits with [e] elements. *)
Definition orbit_number (e : nat) : nat := fcard f [pred x | (x \in X) && (order f x == e)].

Lemma orbit_numberE e : e * orbit_number e = #|[pred x | (x \in X) && (order f x == e)]|.
Proof.
rewrite mulnC; apply: (fcard_order_set f_inj).
  by apply/subsetP => x; rewrite !inE => /andP[].
apply: intro_closed => [|x y]; first exact: fconnect_sym.
rewrite !inE => /eqP <- /andP[Hx /eqP Ho]; rewrite HX Hx /=; apply/eqP; rewrite -Ho.
by rewrite /order; apply: eq_card => z; apply: esym; exact: (same_fconnect1 f_inj x z).
Qed.

Lemma fix_sum j : 0 < j -> #|[set x in X | iter j f x == x]| = \sum_(e <- divisors j) e * orbit_number e.
Proof.
move=> Hj; rewrite (eq_bigr _ (fun e _ => orbit_numberE e)).
have E e : #|[pred x | (x \in X) && (order f x == e)]| = \sum_x (if (x \in X) && (order f x == e) then 1 else 0).
  by rewrite -sum1_card big_mkcond.
rewrite (eq_bigr _ (fun e _ => E e)) exchange_big /= -sum1_card big_mkcond /=; apply: eq_bigr => x _.
rewrite !inE iter_fix; case: (x \in X) => /=; last by rewrite big1.
rewrite -big_mkcond /= sum1_count dvdn_divisors //.
rewrite (eq_count (a2 := pred1 (order f x))); last by move=> e /=; rewrite eq_sym.
by rewrite count_uniq_mem ?divisors_uniq //; case: (_ \in _).
Qed.
End Periods.

Import GRing.Theory.
Local Open Scope ring_scope.

(** ** The points with coordinates in a large field *)
Section Points.
Variables (F K : finFieldType) (emb : {rmorphism F -> K}) (m : nat).
Local Notation q := #|F|.
Hypothesis Ho : odd q.
Hypothesis HK : #|K| = (q ^ m)%N.
Hypothesis Hm : (0 < m)%N.
Variable f : {poly F}.
Hypothesis Hf : f != 0.
Local Notation fK := (map_poly emb f).

Lemma oddK : odd #|K|. Proof. by rewrite HK oddX Ho orbT. Qed.

Definition frob (x : K) : K := x ^+ q.

Lemma iter_frob j x : iter j frob x = x ^+ (q ^ j).
Proof. by elim: j => [|j IH]; rewrite ?expn0 ?expr1 //= IH /frob -exprM expnSr. Qed.

Lemma frob_inj : injective frob.
Proof.
have E x : iter m.-1 frob (frob x) = x by rewrite -iterSr prednK // iter_frob -HK expf_card.
by move=> x y Exy; rewrite -(E x) Exy E.
Qed.

Lemma frobD x y : frob (x + y) = frob x + frob y.
Proof.
have [p pr_p charF] := finCharP F; have charK : p \in [char K] by rewrite (fmorph_char emb).
rewrite /frob exprDn_char // (eq_pnat _ (charf_eq charK)).
by rewrite (card_primeChar charF) pnatX pnat_id.
Qed.

Lemma frob_emb a : frob (emb a) = emb a.
Proof. by rewrite /frob -rmorphX expf_card. Qed.

Lemma frob_horner (h : {poly F}) x : (map_poly emb h).[frob x] = frob (map_poly emb h).[x].
Proof.
elim/poly_ind: h => [|h c IH]; first by rewrite rmorph0 !horner0 /frob expr0n; have := card_gt1 F; case: #|F|.
by rewrite rmorphD rmorphM /= map_polyX map_polyC !hornerMXaddC IH frobD frob_emb /frob exprMn.
Qed.

(** The points that are not fixed by the involution: affine ones, and those at infinity, which are the square roots of the leading
    coefficient if the degree is even. *)
Definition on_curve (P : (K * K) + K) : bool :=
  match P with
  | inl xy => (xy.2 != 0) && (xy.2 ^+ 2 == fK.[xy.1])
  | inr s => ~~ odd (size f).-1 && (s ^+ 2 == emb (lead_coef f))
  end.
Definition move (P : (K * K) + K) : (K * K) + K :=
  match P with inl xy => inl (frob xy.1, frob xy.2) | inr s => inr (frob s) end.

Lemma move_inj : injective move.
Proof. by move=> [[x y]|s] [[x' y']|s'] //= []; [move=> /frob_inj-> /frob_inj->|move=> /frob_inj->]. Qed.

Lemma frobX2 x : frob x ^+ 2 = frob (x ^+ 2).
Proof. by rewrite /frob -!exprM mulnC. Qed.

Lemma frob0 : frob 0 = 0.
Proof. by rewrite /frob expr0n; have := card_gt1 F; case: #|F|. Qed.

Lemma on_curve_move P : on_curve (move P) = on_curve P.
Proof.
case: P => [[x y]|s] /=; first by rewrite frob_horner frobX2 (inj_eq frob_inj) -{1}frob0 (inj_eq frob_inj).
by rewrite frobX2 -{1}frob_emb (inj_eq frob_inj).
Qed.

Lemma iter_move j P : iter j move P =
  match P with inl xy => inl (xy.1 ^+ (q ^ j), xy.2 ^+ (q ^ j)) | inr s => inr (s ^+ (q ^ j)) end.
Proof.
case: P => [[x y]|s]; last by rewrite -iter_frob; elim: j => [|j IH] //=; rewrite IH.
by rewrite -!iter_frob /=; elim: j => [|j IH] //=; rewrite IH.
Qed.

(** The subfield with [q^j] elements *)
Variable j : nat.
Hypothesis Hj : (0 < j)%N.
Hypothesis Hjm : (j %| m)%N.
Local Notation Q := (q ^ j)%N.
Local Notation h := (Q.-1)./2.

Lemma oddQ : odd Q. Proof. by rewrite oddX Ho orbT. Qed.
Lemma Q_gt1 : (1 < Q)%N. Proof. by rewrite -(exp1n j) ltn_exp2r // card_gt1. Qed.

Lemma dvdQ : (Q.-1 %| #|K|.-1)%N.
Proof.
case/dvdnP: Hjm => t E; rewrite HK E mulnC expnM; have := Q_gt1; move: Q => b Hb.
elim: t {E} => [|t IH]; first by rewrite expn0 dvdn0.
have -> : ((b ^ t.+1).-1 = b.-1 * b ^ t + (b ^ t).-1)%N.
  by rewrite expnS; have : (0 < b ^ t)%N by [rewrite expn_gt0; lia]; move: (b ^ t)%N => c; nia.
by rewrite dvdn_addr // dvdn_mulr.
Qed.

Lemma fixed_dvd : ('X^Q - 'X : {poly K}) %| 'X^#|K| - 'X.
Proof.
have Hp : (0 < #|K|)%N by have := card_gt1 K; lia.
have HQ : (0 < Q)%N by have := Q_gt1; lia.
have E n : 'X^n.+1 - 'X = 'X * ('X^n - 1) :> {poly K} by rewrite mulrBr mulr1 -exprS.
rewrite -(prednK HQ) -(prednK Hp) !E dvdp_mul2l ?polyX_eq0 //.
case/dvdnP: dvdQ => t ->; rewrite mulnC exprM -[X in _ %| _ - X](expr1n _ t) subrXX; exact: dvdp_mulIl.
Qed.

Lemma card_fixed_roots (k : {poly F}) :
  #|[set x : K | (x ^+ Q == x) && root (map_poly emb k) x]| = (size (gcdp k ('X^Q - 'X))).-1.
Proof.
have E : map_poly emb ('X^Q - 'X) = 'X^Q - 'X by rewrite rmorphB rmorphX /= map_polyX.
rewrite -(size_map_poly emb) gcdp_map E -card_roots_split; last exact: dvdp_trans (dvdp_gcdr _ _) fixed_dvd.
by apply: eq_card => x; rewrite !inE root_gcd andbC /root !hornerE hornerXn subr_eq0.
Qed.

Lemma fixed_sqrt (a s : K) : a != 0 -> s ^+ 2 = a -> (s ^+ Q == s) = (a ^+ h == 1).
Proof.
move=> Ha Es; have Hs : s != 0 by apply: contraNneq Ha => E; rewrite -Es E expr0n.
have Eh : Q.-1 = (2 * h)%N by have := oddQ; have := Q_gt1; move: Q => b; lia.
rewrite -Es -exprM -Eh; have HQ : (0 < Q)%N by have := Q_gt1; lia.
have -> : (s ^+ Q == s) = (s * s ^+ Q.-1 == s * 1) by rewrite mulr1 -exprS prednK.
by rewrite (inj_eq (mulfI Hs)).
Qed.

Lemma card_fixed_sqrt (a : K) :
  #|[set s : K | [&& s != 0, s ^+ 2 == a & s ^+ Q == s]]| = (if a == 0%R then 0 else if a ^+ h == 1%R then 2 else 0)%N.
Proof.
case: (a =P 0) => [->|/eqP Ha].
  by apply/eqP; rewrite cards_eq0; apply/eqP/setP => s; rewrite !inE sqrf_eq0; case: eqP.
have Hs0 (s : K) : s ^+ 2 = a -> s != 0 by move=> Es; apply: contraNneq Ha => E; rewrite -Es E expr0n.
have [G HG] := exists_generator K.
case: (a ^+ h =P 1) => [E|/eqP Hn]; last first.
  apply/eqP; rewrite cards_eq0; apply/eqP/setP => s; rewrite !inE; apply/and3P => -[_ /eqP Es].
  by rewrite (fixed_sqrt Ha Es) (negbTE Hn).
have Hsq : sqnz a.
  rewrite -(euler oddK HG) //; case/dvdnP: dvdQ => t Et.
  have -> : (#|K|.-1)./2 = (h * t)%N.
    have := oddQ; have := Q_gt1; move: Et; move: #|K| Q => k b -> H1 H2.
    have -> : b.-1 = (2 * (b.-1)./2)%N by lia.
    by rewrite mulnCA mul2n doubleK mul2n doubleK mulnC.
  by rewrite exprM E expr1n.
have := card_sqrt oddK a; rewrite (negbTE Ha) Hsq => E2; rewrite -[RHS]E2; apply: eq_card => s; rewrite !inE.
by case: (s ^+ 2 =P a) => [Es|_]; rewrite ?andbF // (fixed_sqrt Ha Es) E eqxx (Hs0 _ Es).
Qed.

Lemma h_gt0 : (0 < h)%N.
Proof. by have := oddQ; have := Q_gt1; move: Q => b; lia. Qed.

Lemma fixed_affine :
  #|[set xy : K * K | [&& (xy.2 != 0) && (xy.2 ^+ 2 == fK.[xy.1]), xy.1 ^+ Q == xy.1 & xy.2 ^+ Q == xy.2]]| =
  (2 * (size (gcdp (f ^+ h - 1) ('X^Q - 'X))%R).-1)%N.
Proof.
rewrite -sum1_card.
rewrite (eq_bigl (fun xy : K * K => (xy.1 ^+ Q == xy.1) && [&& xy.2 != 0, xy.2 ^+ 2 == fK.[xy.1] & xy.2 ^+ Q == xy.2])); last first.
  by move=> xy; rewrite inE; case: (xy.1 ^+ Q == xy.1); rewrite ?andbF /= ?andbA.
rewrite -(pair_big_dep (fun x : K => x ^+ Q == x) (fun x s => [&& s != 0, s ^+ 2 == fK.[x] & s ^+ Q == s]) (fun _ _ => 1%N)) /=.
rewrite (eq_bigr (fun x => 2 * (fK.[x] ^+ h == 1)%R)%N); last first.
  move=> x _; rewrite sum1dep_card card_fixed_sqrt; case: eqP => [->|_]; last by case: eqP.
  by rewrite expr0n -[_ == 0%N]negbK -lt0n h_gt0 /= eq_sym oner_eq0.
rewrite -big_distrr /= -!card_fixed_roots; congr (2 * _)%N.
rewrite -sum1_card big_mkcond [RHS]big_mkcond; apply: eq_bigr => x _; rewrite inE rmorphB rmorphX rmorph1 /=.
by rewrite /root !hornerE horner_exp subr_eq0; case: (x ^+ Q == x); case: eqP.
Qed.

Lemma fixed_points : #|[set P in [set P | on_curve P] | iter j move P == P]| = (base_counts Q f).1.
Proof.
rewrite -sum1_card big_sumType /=.
rewrite (eq_bigl (fun xy => xy \in [set xy : K * K |
  [&& (xy.2 != 0) && (xy.2 ^+ 2 == fK.[xy.1]), xy.1 ^+ Q == xy.1 & xy.2 ^+ Q == xy.2]])); last first.
  by case=> x y; rewrite !inE iter_move /=.
rewrite (eq_bigl (fun s => s \in [set s : K | (~~ odd (size f).-1 && (s ^+ 2 == emb (lead_coef f))) && (s ^+ Q == s)])); last first.
  by move=> s; rewrite !inE iter_move /=.
rewrite !sum1_card fixed_affine /base_counts /= mulnDr; congr (_ + _)%N.
have Hl : emb (lead_coef f) != 0 by rewrite fmorph_eq0 lead_coef_eq0.
case: (odd (size f).-1) => /=; first by apply/eqP; rewrite cards_eq0; apply/eqP/setP => s; rewrite !inE.
have := card_fixed_sqrt (emb (lead_coef f)).
rewrite (negbTE Hl) -rmorphX -(rmorph1 emb) (inj_eq (fmorph_inj emb)) => E; rewrite (_ : (2 * _)%N = if lead_coef f ^+ h == 1%R then 2%N else 0%N).
  rewrite -E; apply: eq_card => s; rewrite !inE; case: (s =P 0) => [->|] //=.
  by rewrite expr0n eq_sym /= (negbTE Hl).
by case: eqP.
Qed.
End Points.

(** Closed points of the curve: [U e] is the number of those of degree [e] that are not fixed by the involution. *)
Lemma closed_unramified (F : finFieldType) (f : {poly F}) (n : nat) : odd #|F| -> f != 0 ->
  exists U : nat -> nat, forall j, (0 < j <= n)%N ->
    (base_counts (#|F| ^ j) f).1 = (\sum_(e <- divisors j) e * U e)%N.
Proof.
move=> Ho Hf; have [K [emb HK]] := extension_exists F (fact_gt0 n).
exists (orbit_number (@move F K) [set P | on_curve emb f P]) => j /andP[Hj Hjn].
rewrite -(fixed_points emb Ho HK (fact_gt0 n) Hf Hj) ?dvdn_fact ?Hj //; apply: fix_sum => //.
  exact: (move_inj HK (fact_gt0 n)).
by move=> P; rewrite !inE (on_curve_move emb HK (fact_gt0 n)).
Qed.
