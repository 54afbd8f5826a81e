(** Choices of irreducible polynomials: the number of squarefree polynomials with given degrees of the irreducible factors, and
    the number of irreducible polynomials. *)
Set Warnings "-notation-overridden,-ambiguous-paths".
From mathcomp Require Import all_ssreflect ssralg poly polydiv finalg finfield zify.
From Verif Require Import FinField CurveSpec RamSpec PolyOrbit Squarefree Irred.

Set Implicit Arguments.
Unset Strict Implicit.
Unset Printing Implicit Defensive.
Import GRing.Theory.

(** ** Lists of parts of a list *)
Fixpoint parts (T : Type) (l : seq T) : seq (seq T) :=
  if l is x :: l' then parts l' ++ [seq x :: s | s <- parts l'] else [:: [::]].

Section Parts.
Variable T : eqType.
Implicit Types (l s : seq T).

Lemma parts_subseq l s : s \in parts l -> subseq s l.
Proof.
elim: l s => [|x l IH] s /=; first by rewrite inE.
rewrite mem_cat => /orP[/IH H|/mapP[t /IH H ->]]; last by rewrite /= eqxx.
exact: subseq_trans H (subseq_cons _ _).
Qed.

Lemma filter_parts (a : pred T) l : filter a l \in parts l.
Proof.
elim: l => [|x l IH] /=; first by rewrite inE.
by rewrite mem_cat; case: (a x); rewrite ?IH // map_f ?orbT.
Qed.

Lemma parts_uniq l : uniq l -> uniq (parts l).
Proof.
elim: l => [|x l IH] //= /andP[Hx /IH Hu]; rewrite cat_uniq Hu map_inj_uniq ?Hu; last by move=> s t [].
rewrite andbT; apply/hasPn => s /mapP[t _ ->]; apply/negP => /parts_subseq/mem_subseq/(_ x).
by rewrite inE eqxx (negbTE Hx) => /(_ isT).
Qed.

Lemma parts_mem l s t : uniq l -> s \in parts l -> t \in parts l -> s =i t -> s = t.
Proof.
move=> Hu /parts_subseq Hs /parts_subseq Ht E.
have Hf r : subseq r l -> r = [seq x <- l | x \in r].
  by move=> H; apply: subseq_uniqP.
by rewrite (Hf _ Hs) (Hf _ Ht); apply: eq_filter => x; rewrite E.
Qed.
End Parts.

(** ** Pascal's rule for products of binomial coefficients *)
Definition binomials (B : nat) (n : nat -> nat) (r : seq nat) : nat :=
  \prod_(e <- iota 1 B) 'C(n e, count_mem e r).

Lemma binomials_eq B n n' r : (forall e, 0 < e <= B -> n e = n' e) -> binomials B n r = binomials B n' r.
Proof. by move=> H; apply: eq_big_seq => e; rewrite mem_iota => He; rewrite H //; lia. Qed.

Lemma binomials_step B n r x : 0 < x <= B ->
  binomials B (fun e => n e + (e == x)) r =
  binomials B n r + (if x \in r then binomials B n (rem x r) else 0).
Proof.
move=> Hx; have Hi : x \in iota 1 B by rewrite mem_iota; lia.
rewrite /binomials !(bigD1_seq x) ?iota_uniq //= eqxx addn1.
have -> : \prod_(i <- iota 1 B | i != x) 'C(n i + (i == x), count_mem i r) =
          \prod_(i <- iota 1 B | i != x) 'C(n i, count_mem i r).
  by apply: eq_bigr => e /negbTE->; rewrite addn0.
case: ifP => Hr; last first.
  by rewrite (count_memPn (negbT Hr)) !bin0 addn0.
have Ec e : count_mem e r = (e == x) + count_mem e (rem x r).
  by rewrite (permP (perm_to_rem Hr)) /= eq_sym.
have -> : \prod_(i <- iota 1 B | i != x) 'C(n i, count_mem i (rem x r)) =
          \prod_(i <- iota 1 B | i != x) 'C(n i, count_mem i r).
  by apply: eq_bigr => e /negbTE He; rewrite (Ec e) He.
by rewrite (Ec x) eqxx add1n binS mulnDl.
Qed.

(** The number of parts with given values of a function. *)
Lemma count_parts (T : Type) (deg : T -> nat) (l : seq T) B r :
  all (fun x => 0 < deg x <= B) l -> all (fun e => 0 < e <= B) r ->
  seq.count (fun s => perm_eq (map deg s) r) (parts l) =
  binomials B (fun e => seq.count (fun x => deg x == e) l) r.
Proof.
elim: l r => [|x l IH] r /=.
  move=> _ Hr; rewrite addn0 /binomials; case: r Hr => [|e r].
    by move=> _; rewrite big1 //= => e _; rewrite bin0.
  move=> /= /andP[He _]; have Hi : e \in iota 1 B by rewrite mem_iota; lia.
  rewrite (bigD1_seq e Hi) ?iota_uniq //=.
  by rewrite eqxx /= bin0n mul0n; have := @perm_size _ [::] (e :: r); case: perm_eq => //= /(_ isT).
case/andP=> Hx Hl Hr; rewrite count_cat IH // count_map.
rewrite [RHS](@binomials_eq B _ (fun e => seq.count (fun y => deg y == e) l + (e == deg x))); last first.
  by move=> e _; rewrite addnC [deg x == e]eq_sym.
rewrite binomials_step //; congr (_ + _); case: ifP => Hm.
  rewrite -IH //; last by apply/allP => e /mem_rem He; apply: (allP Hr).
  apply: eq_count => s /=; rewrite (permPr (perm_to_rem Hm)) perm_cons //.
rewrite -(count_pred0 (parts l)); apply: eq_count => s /=; apply/negbTE/negP => H.
by move: Hm; rewrite -(perm_mem H) inE eqxx.
Qed.

Local Open Scope ring_scope.
Section Field.
Variable F : finFieldType.
Implicit Types f P : {poly F}.
Local Notation q := #|F|.
Local Notation deg := (fun P : {poly F} => (size P).-1).

(** The monic irreducible polynomials of degree [e]. *)
Definition irrs (e : nat) : seq {poly F} := [seq P <- monics F e | irreducible P].
Definition all_irrs (B : nat) : seq {poly F} := flatten [seq irrs e | e <- iota 1 B].

Lemma mem_irrs e P : (P \in irrs e) = [&& P \is monic, irreducible P & deg P == e].
Proof.
rewrite mem_filter mem_monics; case: (boolP (P \is monic)) => Hm; rewrite ?andbF //=.
by case: (boolP (irreducible P)) => //= /andP[H _]; move: (size P) H => [|[|m]] // _; rewrite eqSS.
Qed.

Lemma mem_all_irrs B P : (P \in all_irrs B) = [&& P \is monic, irreducible P & deg P <= B]%N.
Proof.
apply/flatten_mapP/and3P => [[e]|[H1 H2 H3]].
  by rewrite mem_iota mem_irrs => He /and3P[-> -> /eqP E]; split=> //; lia.
exists (deg P); last by rewrite mem_irrs H1 H2 eqxx.
by rewrite mem_iota; case/andP: H2; lia.
Qed.

Lemma irrs_uniq e : uniq (irrs e).
Proof. by rewrite filter_uniq ?monics_uniq. Qed.

Lemma all_irrs_uniq B : uniq (all_irrs B).
Proof.
rewrite /all_irrs; elim: (iota 1 B) (iota_uniq 1 B) => [|d s IH] //= /andP[Hd Hu].
rewrite cat_uniq irrs_uniq IH // andbT /=; apply/hasPn => P /flattenP[l /mapP[e He ->]].
rewrite mem_irrs => /and3P[_ _ /eqP E]; apply/negP; rewrite inE mem_irrs => /and3P[_ _ /eqP E'].
by move: Hd; rewrite -E' E He.
Qed.

Lemma count_all_irrs B e : (0 < e <= B)%N -> seq.count (fun P => deg P == e) (all_irrs B) = size (irrs e).
Proof.
move=> He; rewrite -size_filter; apply: perm_size; apply: uniq_perm.
- by rewrite filter_uniq ?all_irrs_uniq.
- exact: irrs_uniq.
move=> P; rewrite mem_filter mem_all_irrs mem_irrs; case: (P \is monic); case: irreducible; rewrite ?andbF //=.
by case: eqP => [->|] //=; lia.
Qed.

Lemma prime_divisors_prod (c : F) (s : seq {poly F}) : c != 0 -> irr_list s -> prime_divisors (c *: \prod_(P <- s) P) =i s.
Proof.
move=> Hc Hs P; have H0 : c *: \prod_(R <- s) R != 0.
  by rewrite scaler_eq0 negb_or Hc monic_neq0 // prod_monic.
rewrite mem_prime_divisors // dvdpZr //; apply/and3P/idP => [[mP iP Hd]|HP].
  apply: contraTT Hd => HP; have : coprimep P (\prod_(R <- s) R).
    by apply: coprime_irr; case/andP: Hs => Hu Ha; rewrite /irr_list /= HP Hu mP iP.
  move=> Hco; apply/negP => Hd; have := coprimep_dvdl Hd Hco; rewrite coprimepp => /eqP E.
  by case/andP: iP; rewrite E.
have /andP[mP iP] : (P \is monic) && irreducible P by case/andP: Hs => _ /allP/(_ _ HP).
by split=> //; rewrite (big_rem P HP) /= dvdp_mulr.
Qed.

Lemma squarefree_irr (c : F) (s : seq {poly F}) : c != 0 -> irr_list s -> squarefree (c *: \prod_(P <- s) P).
Proof.
move=> Hc Hs; have Hp0 : \prod_(R <- s) R != 0 by rewrite monic_neq0 // prod_monic.
rewrite squarefree_mulr //; apply/(squarefreeP Hp0) => h Hd; rewrite leqNgt; apply/negP => Hh.
have [P [mP iP HP]] := exists_factor Hh.
have HPs : P \in s.
  rewrite -(prime_divisors_prod (oner_neq0 F) Hs) scale1r mem_prime_divisors // mP iP /=.
  by apply: dvdp_trans Hd; rewrite expr2 dvdp_mulr.
have Hperm := perm_to_rem HPs.
have Hs' : irr_list (P :: rem P s).
  case/andP: Hs => Hu Ha; rewrite /irr_list -(perm_uniq Hperm) Hu; apply/allP => R.
  by rewrite -(perm_mem Hperm) => /(allP Ha).
have : P ^+ 2 %| \prod_(R <- s) R by apply: dvdp_trans Hd; rewrite !expr2 dvdp_mul.
rewrite (perm_big _ Hperm) big_cons expr2 dvdp_mul2l ?monic_neq0 // => HPd.
have := coprimep_dvdl HPd (coprime_irr Hs'); rewrite coprimepp => /eqP E.
by case/andP: iP; rewrite E.
Qed.

(** Squarefree polynomials with given degrees of the irreducible factors. *)
Lemma count_pattern r : all (ltn 0%N) r -> forall B, (sumn r <= B)%N ->
  seq.count (fun f => perm_eq [seq deg P | P <- prime_divisors f] r) (sqf F (sumn r)) =
  (q.-1 * binomials B (fun e => size (irrs e)) r)%N.
Proof.
move=> Hr B HB.
have Hle : all (fun e => 0 < e <= B)%N r.
  apply/allP => e He; have H0 : (0 < e)%N := allP Hr _ He; rewrite H0 /=; apply: leq_trans HB.
  by rewrite (perm_sumn (perm_to_rem He)) /= leq_addr.
pose L := all_irrs B.
have HL : all (fun P => 0 < deg P <= B)%N L.
  by apply/allP => P; rewrite mem_all_irrs => /and3P[_ /andP[H _]]; lia.
pose S := [seq s <- parts L | perm_eq [seq deg P | P <- s] r].
have HS s : s \in S -> irr_list s.
  rewrite mem_filter => /andP[_ /parts_subseq Hs]; rewrite /irr_list (subseq_uniq Hs) ?all_irrs_uniq //.
  by apply/allP => P /(mem_subseq Hs); rewrite mem_all_irrs => /and3P[-> ->].
pose C := [seq c <- enum F | c != 0].
have HC : size C = q.-1.
  have := cardC1 (0 : F); rewrite cardE /C => <-.
  by rewrite /enum_mem -filter_predI; congr size; apply: eq_filter => c; rewrite /= !inE andbT.
rewrite -(@binomials_eq B (fun e => seq.count (fun P => deg P == e) L)); last by move=> e He; rewrite count_all_irrs.
rewrite -(count_parts HL Hle) -HC -!size_filter -/S -(size_allpairs (fun c s => c *: \prod_(P <- s) P)).
apply: perm_size; apply: uniq_perm.
- by do 2 apply: filter_uniq; exact: polys_uniq.
- apply: (allpairs_uniq (f := fun c s => c *: \prod_(P <- s) P)).
  + by apply: filter_uniq; exact: enum_uniq.
  + by apply: filter_uniq; apply: parts_uniq; exact: all_irrs_uniq.
  case=> c s [c' s'] /allpairsP[[c1 s1] /= [Hc Hs [-> ->]]] /allpairsP[[c2 s2] /= [Hc' Hs' [-> ->]]] E.
  rewrite !mem_filter in Hc Hc'; case/andP: Hc => Hc _; case/andP: Hc' => Hc' _.
  have Es : s1 = s2.
    have Hi t : t \in S -> t \in parts L by rewrite mem_filter => /andP[].
    apply: (parts_mem (all_irrs_uniq B)); rewrite ?Hi // => P.
    by rewrite -(prime_divisors_prod Hc (HS _ Hs)) E prime_divisors_prod ?HS.
  by congr pair => //; have := congr1 lead_coef E; rewrite !lead_coefZ Es !(monicP (prod_monic _)) ?HS // !mulr1.
move=> f; rewrite mem_filter mem_sqf; apply/idP/allpairsP.
  case/and3P=> Hp Hsq /eqP Hsz; have Hf : f != 0 by rewrite -size_poly_gt0 Hsz.
  exists (lead_coef f, [seq P <- L | P %| f]); rewrite /=.
  have Hpd : perm_eq [seq P <- L | P %| f] (prime_divisors f).
    apply: uniq_perm; [by apply: filter_uniq; exact: all_irrs_uniq|exact: prime_divisors_uniq|move=> P].
    rewrite mem_filter mem_all_irrs mem_prime_divisors //; case: (boolP (P %| f)) => [Hd|]; rewrite ?andbF //=.
    have := dvdp_leq Hf Hd; rewrite Hsz => Hle2.
    by rewrite (_ : ((size P).-1 <= B)%N = true) //; move: Hle2 HB; clear; case: (size P) => [|m] /=; lia.
  split.
  - by rewrite mem_filter lead_coef_eq0 Hf mem_enum.
  - by rewrite mem_filter filter_parts andbT (perm_trans _ Hp) // perm_map.
  - rewrite (perm_big _ Hpd) /=; have Hm := prod_monic (irr_prime_divisors Hf).
    have /eqpf_eq[c Hc E] := squarefree_prod Hf Hsq.
    by have -> : lead_coef f = c by rewrite E lead_coefZ (monicP Hm) mulr1.
case=> -[c s] /= [Hc Hs ->]; have Hi := HS _ Hs; rewrite mem_filter in Hc; case/andP: Hc => Hc _.
have Hp : perm_eq (prime_divisors (c *: \prod_(P <- s) P)) s.
  by apply: uniq_perm; [exact: prime_divisors_uniq|case/andP: Hi|exact: prime_divisors_prod].
have Hsr : perm_eq [seq deg P | P <- s] r by move: Hs; rewrite mem_filter => /andP[].
rewrite (permPl (perm_map _ Hp)) Hsr squarefree_irr //= size_scale // -(perm_sumn Hsr) -size_prod_irr //.
by rewrite prednK // size_poly_gt0 monic_neq0 // prod_monic.
Qed.

(** The number of irreducible polynomials: every degree that divides [e] contributes to [q^e]. *)
Lemma irrs_sum e : (0 < e)%N -> (\sum_(d <- divisors e) d * size (irrs d) = q ^ e)%N.
Proof.
move=> He; pose h : {poly F} := 'X^(q ^ e) - 'X.
have Hq := card_gt1 F; have Hqe : (1 < q ^ e)%N by rewrite -(exp1n e) ltn_exp2r.
have Hs : size h = (q ^ e).+1 by rewrite size_addl ?size_opp ?size_polyXn ?size_polyX.
have Hh : h != 0 by rewrite -size_poly_gt0 Hs.
have Hsq : squarefree h.
  apply/(squarefreeP Hh) => t /dvdpP[u Eu].
  have Hd : t %| h^`().
    rewrite Eu expr2 !derivM; apply: dvdp_add; first by rewrite mulrA dvdp_mull.
    by apply: dvdp_mull; apply: dvdp_add; [exact: dvdp_mull|exact: dvdp_mulr].
  have Eh : h^`() = -1.
    rewrite derivB derivXn derivX; have [p pr_p charF] := finCharP F.
    have Hp : (p %| q ^ e)%N.
      apply: (dvdn_trans _ (dvdn_exp He (dvdnn q))).
      have [n E] : exists n, q = (p ^ n)%N by eexists; exact: (card_primeChar charF).
      rewrite E dvdn_exp // lt0n.
      by apply: contraTneq Hq => E0; rewrite E E0.
    have -> : 'X^(q ^ e).-1 *+ (q ^ e) = 0 :> {poly F}.
      by rewrite -scaler_nat (eqP (_ : (q ^ e)%:R == 0 :> F)) ?scale0r // -(dvdn_charf charF).
    by rewrite sub0r.
  by move: Hd; rewrite Eh -scaleN1r dvdpZr ?oppr_eq0 ?oner_neq0 // dvdp1 => /eqP->.
have -> : (q ^ e)%N = (size h).-1 by rewrite Hs.
rewrite (degrees_sum Hh Hsq).
have Hpd : perm_eq (prime_divisors h) (flatten [seq irrs d | d <- divisors e]).
  apply: uniq_perm; first exact: prime_divisors_uniq.
    elim: (divisors e) (divisors_uniq e) => [|d s IH] //= /andP[Hd Hu].
    rewrite cat_uniq irrs_uniq IH // andbT /=; apply/hasPn => P /flattenP[l /mapP[e' He' ->]].
    rewrite mem_irrs => /and3P[_ _ /eqP E]; apply/negP; rewrite inE mem_irrs => /and3P[_ _ /eqP E'].
    by move: Hd; rewrite -E' E He'.
  move=> P; rewrite mem_prime_divisors //; apply/and3P/flatten_mapP => [[mP iP HP]|[d]].
    exists (deg P); last by rewrite mem_irrs mP iP eqxx.
    by rewrite -dvdn_divisors // -irred_dvd_XQ.
  by rewrite -dvdn_divisors // mem_irrs => Hd /and3P[-> iP /eqP E]; rewrite iP irred_dvd_XQ // E.
rewrite (perm_sumn (perm_map _ Hpd)) map_flatten -map_comp sumnE big_flatten big_map /=.
apply: eq_bigr => d _; rewrite big_map.
rewrite big_seq (eq_bigr (fun _ => d)); last by move=> P; rewrite mem_irrs => /and3P[_ _ /eqP].
by rewrite -big_seq big_const_seq count_predT iter_addn addn0.
Qed.
End Field.
