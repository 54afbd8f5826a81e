(** Irreducible polynomials over finite fields: the degrees of the irreducible factors determine
    the number of roots in every extension. *)
Set Warnings "-notation-overridden,-ambiguous-paths".
From mathcomp Require Import all_ssreflect ssralg poly polydiv finalg vector falgebra fieldext finfield zify.
From Verif Require Import FinField CurveSpec PolyOrbit Squarefree RamSpec.

Set Implicit Arguments.
Unset Strict Implicit.
Unset Printing Implicit Defensive.
Import GRing.Theory.
Local Open Scope ring_scope.

Section Irred.
Variable F : finFieldType.
Implicit Types f P R h : {poly F}.
Local Notation q := #|F|.

Lemma irreducibleP P : reflect (irreducible_poly P) (irreducible P).
Proof.
apply: (iffP andP) => [[Hs Ha]|[Hs Hi]].
  split=> // h Hh Hd; rewrite -dvdp_size_eqp // eqn_leq.
  have HP0 : P != 0 by rewrite -size_poly_gt0; slia.
  have Hle := dvdp_leq HP0 Hd; rewrite Hle /=.
  have Hh0 : h != 0 by apply: contraTneq Hd => ->; rewrite dvd0p.
  case: leqP => // Hlt.
  have /(allP Ha)/allP : (size h).-1 \in iota 1 (size P - 2).
    by rewrite mem_iota; move: Hh0 Hh Hlt; rewrite -size_poly_gt0; move: (size h) (size P) => a b; slia.
  move/(_ h); rewrite mem_polys prednK ?size_poly_gt0 // eqxx => /(_ isT).
  by rewrite Hd.
split=> //; apply/allP => d; rewrite mem_iota => Hd; apply/allP => h; rewrite mem_polys => /eqP Hh.
apply/negP => Hdv; have : h %= P by apply: Hi => //; rewrite Hh; slia.
by move/eqp_size; rewrite Hh; move: Hd; move: (size P) => a; slia.
Qed.

Lemma mem_prime_divisors f P : f != 0 ->
  (P \in prime_divisors f) = [&& P \is monic, irreducible P & P %| f].
Proof.
move=> Hf; rewrite mem_filter; case: and3P => //= -[Hm Hi Hd].
apply/flattenP; exists (polys F (size P).-1).
  apply/mapP; exists (size P).-1 => //; rewrite mem_iota.
  have := dvdp_leq Hf Hd; move: Hi => /andP[+ _]; move: (size P) (size f) => a b; lia.
by rewrite mem_polys; move: Hi => /andP[]; case: (size P).
Qed.

Lemma prime_divisors_uniq f : uniq (prime_divisors f).
Proof.
apply: filter_uniq; elim: (iota 1 (size f)) (iota_uniq 1 (size f)) => [|d s IH] //= /andP[Hd Hu].
rewrite cat_uniq polys_uniq IH // andbT /=; apply/hasPn => P /flattenP[l /mapP[e He ->]].
rewrite mem_polys => /eqP E; rewrite /= mem_polys E eqSS; apply: contraNneq Hd => <-; exact: He.
Qed.

Lemma irred_dvd_or P h : irreducible_poly P -> P %| h \/ coprimep P h.
Proof.
move=> HP; have [Hc|Hn] := boolP (coprimep P h); [by right|left].
have := apply_irredp HP Hn (dvdp_gcdl P h).
by move/eqp_dvdl <-; exact: dvdp_gcdr.
Qed.

Lemma exists_factor f : (1 < size f)%N -> exists P, [/\ P \is monic, irreducible P & P %| f].
Proof.
have [n] := ubnP (size f); elim: n f => // n IH f Hn Hs.
have Hf : f != 0 by rewrite -size_poly_gt0; slia.
case: (boolP (irreducible f)) => Hi.
  have Hl : (lead_coef f)^-1 != 0 by rewrite invr_eq0 lead_coef_eq0.
  exists ((lead_coef f)^-1 *: f); split.
  - by rewrite monicE lead_coefZ mulVf // lead_coef_eq0.
  - apply/irreducibleP; have [H1 H2] := irreducibleP _ Hi; split; first by rewrite size_scale.
    move=> h Hh; rewrite dvdpZr // => /(H2 _ Hh) E.
    by rewrite (eqp_trans E) // eqp_sym eqp_scale.
  - by rewrite dvdpZl.
move: Hi; rewrite /irreducible Hs /= => /allPn[d]; rewrite mem_iota => Hd /allPn[h].
rewrite mem_polys => /eqP Hh; rewrite negbK => Hdv.
have [||P [H1 H2 H3]] := IH h; try slia.
by exists P; split=> //; apply: dvdp_trans H3 Hdv.
Qed.

Lemma coprime_distinct P R : P \is monic -> R \is monic -> irreducible P -> irreducible R -> P != R ->
  coprimep P R.
Proof.
move=> mP mR /irreducibleP iP /irreducibleP iR HPR; case: (irred_dvd_or R iP) => // Hd.
have := apply_irredp iR _ Hd; rewrite gtn_eqF; last by case: iP.
by move/(_ isT); rewrite eqp_monic // (negbTE HPR).
Qed.

(** Lists of distinct monic irreducible polynomials. *)
Definition irr_list (s : seq {poly F}) : bool :=
  uniq s && all (fun P => (P \is monic) && irreducible P) s.

Lemma irr_list_cons P s : irr_list (P :: s) -> [/\ P \notin s, P \is monic, irreducible P & irr_list s].
Proof. by rewrite /irr_list /= => /andP[/andP[-> ->] /andP[/andP[-> ->] ->]]. Qed.

Lemma coprime_prod h s : all (fun P => coprimep h P) s -> coprimep h (\prod_(P <- s) P).
Proof.
elim: s => [|P s IH] /=; first by rewrite big_nil coprimep1.
by case/andP=> HP /IH Hs; rewrite big_cons coprimepMr HP.
Qed.

Lemma coprime_irr P s : irr_list (P :: s) -> coprimep P (\prod_(R <- s) R).
Proof.
move=> /irr_list_cons[HP mP iP /andP[_ /allP Hs]]; apply: coprime_prod; apply/allP => R HR.
have /andP[mR iR] := Hs _ HR; apply: coprime_distinct => //.
by apply: contraNneq HP => ->.
Qed.

Lemma prod_dvd s h : irr_list s -> all (fun P => P %| h) s -> \prod_(P <- s) P %| h.
Proof.
elim: s => [|P s IH] Hs /=; first by rewrite big_nil dvd1p.
case/andP=> HP Ha; rewrite big_cons Gauss_dvdp ?HP ?IH //; last exact: coprime_irr.
by have [] := irr_list_cons Hs.
Qed.

Lemma prod_monic s : irr_list s -> \prod_(P <- s) P \is monic.
Proof.
elim: s => [|P s IH] Hs; first by rewrite big_nil monic1.
by have [_ mP _ Hs'] := irr_list_cons Hs; rewrite big_cons monicMl // IH.
Qed.

Lemma size_prod_irr s : irr_list s -> (size (\prod_(P <- s) P)).-1 = sumn [seq (size (P : {poly F})).-1 | P <- s].
Proof.
elim: s => [|P s IH] Hs; first by rewrite big_nil size_poly1.
have [_ mP iP Hs'] := irr_list_cons Hs; rewrite big_cons /= -IH //.
have mp := prod_monic Hs'.
rewrite size_monicM // ?monic_neq0 //.
have := monic_neq0 mp; have := monic_neq0 mP; rewrite -!size_poly_gt0; slia.
Qed.

Lemma irr_prime_divisors f : f != 0 -> irr_list (prime_divisors f).
Proof.
move=> Hf; rewrite /irr_list prime_divisors_uniq; apply/allP => P; rewrite mem_prime_divisors //.
by case/and3P=> -> ->.
Qed.

(** A squarefree polynomial is, up to a constant, the product of its monic irreducible divisors. *)
Lemma squarefree_prod f : f != 0 -> squarefree f -> f %= \prod_(P <- prime_divisors f) P.
Proof.
move=> Hf Hsq; have Hirr := irr_prime_divisors Hf.
have Hd : \prod_(P <- prime_divisors f) P %| f.
  by apply: prod_dvd => //; apply/allP => P; rewrite mem_prime_divisors // => /and3P[].
set D := \prod_(P <- _) P in Hd *.
have E : f = f %/ D * D by rewrite divpK.
have Hq0 : f %/ D != 0 by apply: contraNneq Hf => E0; rewrite E E0 mul0r.
case: (ltnP 1 (size (f %/ D))) => Hs.
  have [P [mP iP Pd]] := exists_factor Hs.
  have HPf : P \in prime_divisors f.
    by rewrite mem_prime_divisors // mP iP /= E dvdp_mulr.
  have HPD : P %| D by rewrite /D (big_rem P HPf) /= dvdp_mulr.
  have := elimT (squarefreeP Hf) Hsq P; rewrite expr2 {1}E dvdp_mul // => /(_ isT).
  by case/andP: iP => H _; rewrite leqNgt H.
have Hs1 : size (f %/ D) = 1%N by move: Hq0; rewrite -size_poly_gt0; slia.
have /size_poly1P[c Hc Ec] : size (f %/ D) == 1%N by rewrite Hs1.
by rewrite E Ec mul_polyC eqp_scale.
Qed.

(** Greatest common divisors with a product of distinct irreducible polynomials. *)
Lemma gcd_prod s h : irr_list s ->
  (size (gcdp (\prod_(P <- s) P) h)).-1 = sumn [seq (size (P : {poly F})).-1 | P <- s & P %| h].
Proof.
move=> Hs.
have Hsub (a : pred {poly F}) : irr_list [seq P <- s | a P].
  case/andP: Hs => Hu Ha; rewrite /irr_list filter_uniq //; apply/allP => P.
  by rewrite mem_filter => /andP[_ HP]; apply: (allP Ha).
have E : \prod_(P <- s) P = (\prod_(P <- [seq P <- s | P %| h]) P) *
                            (\prod_(P <- [seq P <- s | ~~ (P %| h)]) P).
  by rewrite !big_filter (bigID (fun P => P %| h)).
rewrite -(size_prod_irr (Hsub _)) E; congr (_.-1).
set A := \prod_(P <- [seq P <- s | P %| h]) P; set B := \prod_(P <- _) P.
have HA : A %| h by apply: prod_dvd => //; exact: filter_all.
have HB : coprimep h B.
  apply: coprime_prod; apply/allP => P; rewrite mem_filter => /andP[HP Ps].
  case/andP: Hs => _ /allP /(_ _ Ps) /andP[_ /irreducibleP iP].
  by case: (irred_dvd_or h iP) => [Hd|]; [rewrite Hd in HP|rewrite coprimep_sym].
have := Gauss_gcdpl A HB; move/eqp_size => E1.
rewrite (eqp_size (gcdpC _ _)) E1 (eqp_size (gcdpC _ _)).
by apply: eqp_size; rewrite /eqp dvdp_gcdl dvdp_gcd dvdpp HA.
Qed.

(** ** Irreducible polynomials and the fields of order [q^k] *)

Lemma char_nat k (L : fieldExtType F) : [char L].-nat (q ^ k).
Proof.
have [p pr_p charF] := finCharP F; have charL : p \in [char L] by rewrite char_lalg.
rewrite (eq_pnat _ (charf_eq charL)) pnatX; apply/orP; left.
by rewrite (card_primeChar charF) pnatX pnat_id.
Qed.

Lemma pow_fix (L : fieldExtType F) (z : L) e : z ^+ (q ^ e) = z -> forall m, z ^+ (q ^ (e * m)) = z.
Proof.
move=> Hz; elim=> [|m IH]; first by rewrite muln0 expn0 expr1.
by rewrite mulnS expnD exprM Hz.
Qed.

Lemma dvd_exponent e k : (0 < e)%N -> ((q ^ e).-1 %| (q ^ k).-1)%N -> (e %| k)%N.
Proof.
move=> He; have Hq := card_gt1 F.
rewrite {1}(divn_eq k e) expnD; set m := (k %/ e)%N; set s := (k %% e)%N.
have Hs : (s < e)%N by rewrite ltn_mod.
have Hm : ((q ^ e).-1 %| (q ^ (m * e)).-1)%N by rewrite mulnC expnM [X in (_ %| X)%N]predn_exp dvdn_mulr.
have HA : (0 < q ^ (m * e))%N by rewrite expn_gt0; slia.
have HB : (0 < q ^ s)%N by rewrite expn_gt0; slia.
have -> : (q ^ (m * e) * q ^ s).-1 = ((q ^ (m * e)).-1 * q ^ s + (q ^ s).-1)%N.
  by move: HA HB; move: (q ^ (m * e))%N (q ^ s)%N => a b; nia.
rewrite dvdn_addr ?dvdn_mulr // => Hd.
have Hlt : (q ^ s < q ^ e)%N by rewrite ltn_exp2l.
have : (q ^ s).-1 = 0%N.
  apply/eqP; apply: contraTT Hd => Hn; rewrite gtnNdvd ?lt0n //.
  by move: Hlt HB; move: (q ^ s)%N (q ^ e)%N => a b; slia.
move=> H1; have : (q ^ s = 1)%N by move: HB H1; case: (q ^ s)%N => // -[].
case: (posnP s) => [E _|Hs0]; first by rewrite /dvdn -/s E.
by have := @ltn_exp2l #|F| 0 s Hq; rewrite Hs0 expn0 => H E; rewrite E in H.
Qed.

Lemma irred_dvd_XQ P k : irreducible P -> (P %| 'X^(q ^ k) - 'X) = ((size P).-1 %| k)%N.
Proof.
move=> /irreducibleP iP; have He : (0 < (size P).-1)%N by case: iP; case: size => // -[].
have [L HL [z Hz Hfull]] := irredp_FAdjoin iP; set e := (size P).-1 in HL He *.
have HcL : #|[finFieldType of FinFieldExtType L]| = (q ^ e)%N.
  rewrite -HL; have H1 := @card_vspacef F [finType of FinFieldExtType L] (Vector.class L).
  by rewrite -H1 card_vspace.
have Hroot : (P %| 'X^(q ^ k) - 'X) = (z ^+ (q ^ k) == z).
  apply/idP/idP => [Hd|/eqP Ez].
    have : map_poly (in_alg L) P %| map_poly (in_alg L) ('X^(q ^ k) - 'X) by rewrite dvdp_map.
    rewrite rmorphB rmorphX /= map_polyX => /dvdpP[h E].
    by rewrite -subr_eq0; have := rootM h (map_poly (in_alg L) P) z; rewrite -E Hz orbT /root !hornerE hornerXn => ->.
  case: (irred_dvd_or ('X^(q ^ k) - 'X) iP) => // Hc.
  have := coprimep_map [rmorphism of in_alg L] P ('X^(q ^ k) - 'X); rewrite Hc => /coprimep_root /(_ Hz).
  by rewrite rmorphB rmorphX /= map_polyX !hornerE hornerXn Ez subrr eqxx.
rewrite Hroot; apply/eqP/idP => [Ez|/dvdnP[m ->]]; last first.
  by rewrite mulnC pow_fix // -HcL; exact: (@expf_card (FinFieldExtType L)).
have Hall (x : L) : x ^+ (q ^ k) = x.
  have : x \in <<1; z>>%VS by rewrite Hfull memvf.
  case/Fadjoin_polyP=> h /polyOverP Hh ->; rewrite horner_coef.
  have Hadd (I : Type) (r : seq I) (G : I -> L) :
      (\sum_(i <- r) G i) ^+ (q ^ k) = \sum_(i <- r) G i ^+ (q ^ k).
    elim/big_rec2: _ => [|i y1 y2 _ <-]; first by rewrite expr0n expn_eq0; have := card_gt1 F; case: #|F|.
    by rewrite exprDn_char ?char_nat.
  rewrite Hadd; apply: eq_bigr => i _; rewrite exprMn -exprM mulnC exprM Ez; congr (_ * _).
  have /vlineP[c ->] := Hh i; rewrite exprZn expr1n; congr (_ *: _).
  have := @expf_card F c; move=> Hc; elim: (k) => [|j IH]; first by rewrite expn0 expr1.
  by rewrite expnS exprM Hc.
apply: dvd_exponent => //; rewrite -HcL.
have [G HG] := exists_generator (FinFieldExtType L).
have HG0 := gen_neq0 HG.
have E1 : G ^+ (q ^ k).-1 = 1.
  apply: (mulfI HG0); rewrite mulr1 -exprS prednK; first exact: Hall.
  by rewrite expn_gt0; have := card_gt1 F; lia.
by rewrite (prim_order_dvd HG); apply/eqP.
Qed.

(** The number of roots of a squarefree polynomial in the field of order [q^k]. *)
Lemma roots_sum f k : f != 0 -> squarefree f ->
  (size (gcdp f ('X^(q ^ k) - 'X))).-1 =
  sumn [seq e <- [seq (size (P : {poly F})).-1 | P <- prime_divisors f] | (e %| k)%N].
Proof.
move=> Hf Hsq; have Hirr := irr_prime_divisors Hf.
rewrite (eqp_size (eqp_gcdl _ (squarefree_prod Hf Hsq))) gcd_prod // filter_map.
congr (sumn (map _ _)); apply: eq_in_filter => P HP; rewrite /= irred_dvd_XQ //.
by case/andP: Hirr => _ /allP /(_ _ HP) /andP[].
Qed.

Lemma degrees_sum f : f != 0 -> squarefree f ->
  (size f).-1 = sumn [seq (size (P : {poly F})).-1 | P <- prime_divisors f].
Proof.
by move=> Hf Hsq; rewrite -size_prod_irr ?irr_prime_divisors // (eqp_size (squarefree_prod Hf Hsq)).
Qed.

(** FLINT's factorisation of a squarefree polynomial. *)
Lemma factorisation_degrees f fs : f != 0 -> squarefree f -> factorisation f fs ->
  perm_eq (flatten [seq nseq de.2 de.1 | de <- fs]) [seq (size (P : {poly F})).-1 | P <- prime_divisors f].
Proof.
move=> Hf Hsq [Ps [Hu Ha Ef ->]].
have Hlc : lead_coef f != 0 by rewrite lead_coef_eq0.
have Hdv Pm : Pm \in Ps -> Pm.1 ^+ Pm.2 %| f.
  by move=> HPm; rewrite Ef dvdpZr // (big_rem Pm HPm) /= dvdp_mulr.
have Hone Pm : Pm \in Ps -> Pm.2 = 1%N.
  move=> HPm; have /and3P[_ /andP[Hs _] H0] := allP Ha _ HPm.
  case E: Pm.2 H0 => [|[|m]] // _; exfalso.
  have H2 : Pm.1 ^+ 2 %| f.
    by apply: dvdp_trans (Hdv _ HPm); rewrite E -(addn2 m) exprD dvdp_mull.
  by have := elimT (squarefreeP Hf) Hsq Pm.1 H2; rewrite leqNgt Hs.
have Efl : flatten [seq nseq de.2 de.1 | de <- [seq ((size (Pm.1 : {poly F})).-1, Pm.2) | Pm <- Ps]] =
           [seq (size (P : {poly F})).-1 | P <- [seq Pm.1 | Pm <- Ps]].
  rewrite -!map_comp; elim: (Ps) Hone => [|Pm s IH] //= Hone; rewrite (Hone Pm) ?mem_head //=.
  by rewrite IH // => x Hx; apply: Hone; rewrite inE Hx orbT.
rewrite Efl; apply: perm_map; apply: uniq_perm => //; first exact: prime_divisors_uniq.
move=> P; rewrite mem_prime_divisors //; apply/mapP/and3P => [[Pm HPm ->]|[mP iP Hd]].
  have /and3P[H1 H2 H3] := allP Ha _ HPm; split=> //.
  by apply: dvdp_trans (Hdv _ HPm); case: (Pm.2) H3 => // m _; rewrite exprS dvdp_mulr.
have : P %| \prod_(Pm <- Ps) Pm.1 ^+ Pm.2 by move: Hd; rewrite {1}Ef dvdpZr.
elim: (Ps) Ha => [|Pm s IH] /=.
  by rewrite big_nil dvdp1 => _; move: iP => /andP[]; case: size => // -[].
case/andP=> /and3P[H1 H2 H3] Hs; rewrite big_cons => Hp.
case: (P =P Pm.1) => [EP|/eqP NP]; first by exists Pm; rewrite ?mem_head.
have Hc : coprimep P (Pm.1 ^+ Pm.2) by apply: coprimep_expr; apply: coprime_distinct.
by case: (IH Hs); [rewrite -(Gauss_dvdpr _ Hc)|move=> Qm HQ EQ; exists Qm; rewrite // inE HQ orbT].
Qed.
End Irred.
