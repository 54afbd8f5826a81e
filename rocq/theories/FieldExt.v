(** Every finite field with a chosen generator has extensions of every degree with a compatible
    generator, so the hypotheses on extensions used for point counts can always be met. *)
Set Warnings "-notation-overridden,-ambiguous-paths".
From mathcomp Require Import all_ssreflect all_fingroup ssralg poly polydiv finalg vector falgebra
  fieldext separable galois finfield cyclic cyclotomic zify.
From Verif Require Import FinField TablesSpec PointSpec.

Set Implicit Arguments.
Unset Strict Implicit.
Unset Printing Implicit Defensive.
Import GRing.Theory.
Local Open Scope ring_scope.

(** Following the construction of fields of prime power order in mathcomp's finfield.v. *)
Lemma extension_sig (F : finFieldType) (k : nat) : (0 < k)%N ->
  {L : finFieldType & {emb : {rmorphism F -> L} | #|L| = (#|F| ^ k)%N}}.
Proof.
move=> k_gt0; pose m := (#|F| ^ k)%N; have q_gt1 := finRing_gt1 F.
have m_gt1 : (1 < m)%N by rewrite (leq_trans q_gt1) // /m -{1}(expn1 #|F|) leq_exp2l.
have m_gt0 := ltnW m_gt1; have m1_gt0: (m.-1 > 0)%N by rewrite -ltnS prednK.
pose q (R : ringType) : {poly R} := 'X^m - 'X; have Dq R: q R = ('X^m.-1 - 1) * ('X - 0).
  by rewrite subr0 mulrBl mul1r -exprSr prednK.
have /FinSplittingFieldFor[/= L splitLq]: q [ringType of F] != 0.
  by rewrite Dq monic_neq0 ?rpredM ?monicXsubC ?monic_Xn_sub_1.
rewrite (_ : _ _ (q F) = q L) in splitLq; last first.
  by rewrite /q /= rmorphB rmorphX /= map_polyX.
pose Fm := FinFieldExtType L; exists Fm, [rmorphism of in_alg L].
have /finField_galois_generator[/= a _ Da]: (1 <= {:L})%VS by apply: sub1v.
pose Em := fixedSpace (a ^+ k)%g; rewrite dimv1 expn1 in Da.
have{splitLq} [zs DqL defL] := splitLq.
have Em0 : (m%:R : L) = 0.
  have [p pr_p charF] := finCharP F.
  have charL : p \in [char L] by rewrite char_lalg.
  have Dp : (p %| m)%N.
    rewrite /m Euclid_dvdX // k_gt0 andbT.
    have Hab := finField_is_abelem F.
    have := @order_dvdG _ [set: F]%G (1%R : F); rewrite inE => /(_ isT).
    rewrite cardsT; apply: dvdn_trans.
    have -> : #[(1%R : F)]%g = p; last by [].
    apply/eqP; rewrite eqn_dvd order_dvdn FinRing.zmodXgE -(dvdn_charf charF).
    rewrite dvdnn /= (dvdn_charf charF); have := expg_order (1 : F).
    by rewrite FinRing.zmodXgE => ->.
  by apply/eqP; rewrite -(dvdn_charf charL).
have Uzs: uniq zs.
  rewrite -separable_prod_XsubC -(eqp_separable DqL) Dq separable_root andbC.
  rewrite /root !hornerE subr_eq0 eq_sym hornerXn expr0n gtn_eqF ?oner_eq0 //=.
  rewrite cyclotomic.separable_Xn_sub_1 // -subn1 natrB // subr_eq0.
  by rewrite Em0 eq_sym oner_eq0.
suffices /eq_card->: Fm =i zs.
  apply: succn_inj; rewrite (card_uniqP _) //= -(size_prod_XsubC _ id).
  by rewrite -(eqp_size DqL) size_addl size_polyXn // size_opp size_polyX.
have in_zs: zs =i Em.
  move=> z; rewrite -root_prod_XsubC -(eqp_root DqL) (sameP fixedSpaceP eqP).
  rewrite /root !hornerE subr_eq0 /= hornerXn /m; congr (_ == z).
  elim: (k) => [|i IHi]; first by rewrite gal_id.
  by rewrite expgSr expnSr exprM IHi galM ?Da ?memvf.
suffices defEm: Em = {:L}%VS by move=> z; rewrite in_zs defEm memvf.
apply/eqP; rewrite eqEsubv subvf -defL -[Em]subfield_closed agenvS //.
by rewrite subv_add sub1v; apply/span_subvP=> z; rewrite in_zs.
Qed.

Lemma extension_exists (F : finFieldType) (k : nat) : (0 < k)%N ->
  exists L : finFieldType, exists emb : {rmorphism F -> L}, #|L| = (#|F| ^ k)%N.
Proof. by move=> Hk; have [L [emb HL]] := extension_sig F Hk; exists L, emb. Qed.

(** Units modulo a divisor lift to units. *)
Lemma lift_unit (a n N : nat) : (0 < a)%N -> (0 < n)%N -> (0 < N)%N -> (n %| N)%N -> coprime a n ->
  exists a', (a' = a %[mod n])%N /\ coprime a' N.
Proof.
move=> Ha Hn HN Hd Hc; pose t := (N`_(\pi(a)^'))%N.
exists (n * t + a)%N; split; first by rewrite mulnC modnMDl.
have Ht : (t %| N)%N by exact: dvdn_part.
have Ht0 : (0 < t)%N by exact: part_gt0.
apply: contraT; rewrite /coprime => H1.
have Hg : (1 < gcdn (n * t + a) N)%N by have := gcdn_gt0 (n * t + a) N; rewrite HN orbT; lia.
have Hl := pdiv_prime Hg; have := pdiv_dvd (gcdn (n * t + a) N).
move: (pdiv _) Hl => l Hl; rewrite dvdn_gcd => /andP[Hl1 HlN].
have Hla : (l %| a)%N = (l \in \pi(a)) by rewrite mem_primes Hl Ha.
have Hlt : (l %| t)%N = ~~ (l %| a)%N.
  rewrite Hla; have : (l %| t)%N = (l \in \pi(t)) by rewrite mem_primes Hl Ht0.
  by move=> ->; rewrite /t pi_of_part // !inE mem_primes Hl HN HlN.
case Ea: (l %| a)%N Hlt => /= Hlt.
  move: Hl1; rewrite dvdn_addl // Euclid_dvdM // Hlt orbF => Hln.
  have : (l %| gcdn a n)%N by rewrite dvdn_gcd Ea.
  by rewrite (eqP Hc) dvdn1 => /eqP El; rewrite El in Hl.
by move: Hl1; rewrite dvdn_addr ?Ea // dvdn_mull.
Qed.

Lemma compatible_exists (F L : finFieldType) (emb : {rmorphism F -> L}) (g : F) (k : nat) :
  generator g -> #|L| = (#|F| ^ k)%N -> exists G : L, compatible emb g G.
Proof.
move=> Hg HQ; have [G0 HG0] := exists_generator L.
set n := #|F|.-1; set N := #|L|.-1.
have Hn : (0 < n)%N := pred_q_gt0 F; have HN : (0 < N)%N := pred_q_gt0 L.
have Hd : (n %| N)%N by rewrite /n /N HQ [X in (_ %| X)%N]predn_exp dvdn_mulr.
have Hg0 : emb g != 0 by rewrite fmorph_eq0 gen_neq0.
have [i Hi Ei] := dlog HG0 Hg0.
have Hfac : (N %/ n * n)%N = N by rewrite divnK.
have Hfi : (N %/ n %| i)%N.
  have : emb g ^+ n = 1 by rewrite -rmorphX expf_pred ?rmorph1 // gen_neq0.
  rewrite Ei -exprM => /eqP; rewrite -(expr0 G0) (genX_eq HG0) mod0n -/N -{1}Hfac.
  by rewrite -/(dvdn _ _) dvdn_pmul2r.
have [a0 Ea0] := dvdnP Hfi.
pose a := (a0 + n)%N.
have Ea : emb g = (G0 ^+ (N %/ n)) ^+ a.
  rewrite -exprM mulnDr Hfac exprD -[G0 ^+ N]/(G0 ^+ #|L|.-1).
  by rewrite expf_pred ?gen_neq0 // mulr1 mulnC -Ea0.
have Hc : coprime a n.
  pose d := gcdn a n; rewrite /coprime.
  have Hd0 : (0 < d)%N by rewrite /d gcdn_gt0 Hn orbT.
  have Hdn : (d %| n)%N := dvdn_gcdr a n.
  have E1 : g ^+ (n %/ d) = 1.
    apply: (fmorph_inj emb); rewrite rmorphX rmorph1 Ea -!exprM.
    have -> : (N %/ n * (a * (n %/ d)) = N * (a %/ d))%N.
      have E1 := divnK (dvdn_gcdl a n); have E2 := divnK Hdn.
      by move: E1 E2 Hfac; rewrite -/d; move: (N %/ n)%N (a %/ d)%N (n %/ d)%N => f a1 n1; nia.
    by rewrite exprM -[G0 ^+ N]/(G0 ^+ #|L|.-1) expf_pred ?gen_neq0 // expr1n.
  have : (n %| n %/ d)%N by rewrite (prim_order_dvd Hg) E1.
  move=> /dvdn_leq; rewrite divn_gt0 // dvdn_leq // => /(_ isT) Hle.
  have E2 := divnK Hdn; move: E2 Hle Hn Hd0; rewrite -/d; move: (n %/ d)%N => n1; nia.
have [|a' [Ea' Hc']] := @lift_unit a n N _ Hn HN Hd Hc; first by rewrite /a addn_gt0 Hn orbT.
exists (G0 ^+ a'); split.
  by rewrite /generator (prim_root_exp_coprime a' HG0).
have HE : (G0 ^+ (N %/ n)) ^+ n = 1 by rewrite -exprM Hfac -[G0 ^+ N]/(G0 ^+ #|L|.-1) expf_pred ?gen_neq0.
rewrite -exprM mulnC exprM Ea -/n -/N.
by rewrite -(expr_mod a HE) -(expr_mod a' HE) Ea'.
Qed.
