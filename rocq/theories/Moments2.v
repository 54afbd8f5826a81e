(** Sums of quadratic characters of values of squarefree polynomials over the quadratic extension. *)
Set Warnings "-notation-overridden,-ambiguous-paths".
From mathcomp Require Import all_ssreflect ssralg ssrnum ssrint poly polydiv finalg zify.
From Verif Require Import FinField FieldExt CurveSpec PointSpec PointCount PointMath PolyOrbit Squarefree KeyMath TwistProofs Moments.

Set Implicit Arguments.
Unset Strict Implicit.
Unset Printing Implicit Defensive.
Import GRing.Theory.
Local Open Scope ring_scope.

Section Quadratic.
Variables (F L : finFieldType) (emb : {rmorphism F -> L}).
Local Notation q := #|F|.
Local Notation Q := (q%:Z).
Hypothesis Ho : odd q.
Hypothesis HL : #|L| = (q ^ 2)%N.
Implicit Types (f s t : {poly F}) (a b c u v x y : F) (z : L).

Lemma oddL : odd #|L|. Proof. by rewrite HL oddX Ho. Qed.

Lemma chi_emb a : chi (emb a) = chi a ^+ 2.
Proof.
rewrite chi_sqr /chi fmorph_eq0; case: eqP => [_|/eqP Ha] //=.
by rewrite (sqnz_ext emb Ho HL Ha) orbT.
Qed.

Definition at_ z f : L := (map_poly emb f).[z].

Lemma at_split z t x v : at_ z (t * ('X - x%:P) + v%:P) = at_ z t * (z - emb x) + emb v.
Proof. by rewrite /at_ rmorphD rmorphM rmorphB /= map_polyX !map_polyC /= !(hornerD, hornerM, hornerX, hornerN, hornerC). Qed.

Lemma at_emb f x : at_ (emb x) f = emb f.[x].
Proof. by rewrite /at_ horner_map. Qed.

Variable zeta : L.
Hypothesis Hz : forall a, emb a != zeta.

Lemma span_inj : injective (fun vu : F * F => emb vu.1 * zeta + emb vu.2).
Proof.
case=> v u [v' u'] /= E.
have E1 : emb (v - v') * zeta = emb (u' - u).
  by rewrite !rmorphB mulrBl; apply/eqP; rewrite subr_eq addrAC -subr_eq opprK E addrC.
have Ev : v = v'.
  apply/eqP; rewrite -subr_eq0; apply/negP => /negP Hv.
  have := Hz ((u' - u) / (v - v')); rewrite fmorph_div -E1 mulrAC divff ?mul1r ?eqxx //.
  by rewrite fmorph_eq0.
by move: E; rewrite Ev => /addrI/fmorph_inj->.
Qed.

Lemma sum_span (h : L -> int) : \sum_v \sum_u h (emb v * zeta + emb u) = \sum_z h z.
Proof.
rewrite pair_big /= -(big_map (fun vu : F * F => emb vu.1 * zeta + emb vu.2) xpredT h).
set l := map _ _; have Hu : uniq l by rewrite map_inj_uniq ?index_enum_uniq //; exact: span_inj.
have Hsub : {subset l <= index_enum L} by move=> z _; rewrite mem_index_enum.
have Es (X : finType) : size (index_enum X) = #|X| by rewrite -[index_enum X]enumT -cardE.
have [|_ H] := uniq_min_size Hu Hsub; first by rewrite size_map !Es card_prod HL.
by apply: perm_big; apply: uniq_perm => //; exact: index_enum_uniq.
Qed.

Lemma sum_at (h : L -> int) k : \sum_(t <- monics F k.+2) h (at_ zeta t) = Q ^+ k * \sum_z h z.
Proof.
rewrite (sum_split (fun t => h (at_ zeta t)) 0) (sum_split _ 0).
rewrite (eq_bigr (fun _ => \sum_z h z)) => [|t _]; last first.
  rewrite [RHS](reindex_inj (addrI (at_ zeta t * zeta ^+ 2))) /=.
  rewrite -(sum_span (fun z => h (at_ zeta t * zeta ^+ 2 + z))); apply: eq_bigr => v _; apply: eq_bigr => u _.
  by rewrite !at_split !rmorph0 !subr0 mulrDl -mulrA -expr2 addrA.
by rewrite big_const_seq iter_addr_0 count_predT size_monics -mulr_natl natz qX.
Qed.

Lemma sum_at1 (h : L -> int) : \sum_(t <- monics F 1) h (at_ zeta t) = \sum_u h (zeta + emb u).
Proof.
rewrite (sum_split (fun t => h (at_ zeta t)) 0) monics0 big_seq1; apply: eq_bigr => u _.
by rewrite at_split rmorph0 subr0 /at_ rmorph1 hornerC mul1r.
Qed.

Lemma zeta_lin u : zeta + emb u != 0.
Proof. by rewrite addr_eq0 -rmorphN eq_sym. Qed.

Lemma sum_lin : \sum_u chi (zeta + emb u) = -1.
Proof.
have := sum_chi oddL; rewrite -sum_span (bigD1 0) //=.
rewrite (eq_bigr (fun u => chi u ^+ 2)) => [|u _]; last by rewrite rmorph0 mul0r add0r chi_emb.
rewrite (sum_chi_sqr F) (eq_bigr (fun _ => \sum_u chi (zeta + emb u))) => [|v Hv]; last first.
  rewrite (reindex_inj (mulfI Hv)); apply: eq_bigr => u _.
  by rewrite rmorphM -mulrDr (chiM oddL) chi_emb (chi_sqr v) Hv mul1r.
rewrite big_const iter_addr_0 (_ : #|_| = q.-1); last by rewrite -(cardC1 (0 : F)); apply: eq_card => a; rewrite !inE.
rewrite -mulr_natl natz predqE -{1}[_ - 1]mulr1 -mulrDr => /eqP; rewrite mulf_eq0 => /orP[].
  by rewrite -predqE; have := card_gt1 F; move: #|F| => b; lia.
by rewrite addrC addr_eq0 => /eqP.
Qed.

Definition quad z d := \sum_(f <- sqf F d) chi (at_ z f).

Lemma quad_sum :
  [/\ quad zeta 0 = Q - 1, quad zeta 1 = - (Q - 1), quad zeta 2 = - (Q * (Q - 1)), quad zeta 3 = Q * (Q - 1) &
      forall d, quad zeta d.+4 = quad zeta d].
Proof.
pose w f := chi (at_ zeta f); pose h z : int := (z != 0)%:R; pose mu t := h (at_ zeta t).
have Hw s t : t \is monic -> w (s * t ^+ 2) = w s * mu t.
  by move=> _; rewrite /w /mu /h /at_ rmorphM rmorphX /= hornerM horner_exp (chiM oddL) (chi_sqrM oddL).
have Hsc c f : c != 0 -> w (c *: f) = w f.
  by move=> Hc; rewrite /w /at_ map_polyZ hornerZ (chiM oddL) chi_emb (chi_sqr c) Hc mul1r.
have A0 : \sum_(t <- monics F 0) w t = 1 by rewrite monics0 big_seq1 /w /at_ rmorph1 hornerC chi1.
have A1 : \sum_(t <- monics F 1) w t = -1 by rewrite (sum_at1 (@chi L)) sum_lin.
have A2 k : \sum_(t <- monics F k.+2) w t = 0 by rewrite (sum_at (@chi L)) (sum_chi oddL) mulr0.
have M0 : \sum_(t <- monics F 0) mu t = 1 by rewrite monics0 big_seq1 /mu /h /at_ rmorph1 hornerC oner_eq0.
have M1 : \sum_(t <- monics F 1) mu t = Q.
  rewrite (sum_at1 h) (eq_bigr (fun _ => 1)) => [|u _]; last by rewrite /h zeta_lin.
  by rewrite big_const iter_addr_0 natz.
have M2 k : \sum_(t <- monics F k.+2) mu t = Q ^+ k * (Q ^+ 2 - 1) by rewrite (sum_at h) (sum_neq0 L) HL qX.
have VS e : quad zeta e.+2 + \sum_(0 <= k < e./2.+1) (\sum_(t <- monics F k.+1) mu t - Q * \sum_(t <- monics F k) mu t) * quad zeta (e - k.*2)%N =
    (Q - 1) * (\sum_(t <- monics F e.+2) w t - Q * \sum_(t <- monics F e) w t) by exact: (conv_step Hw Hsc).
split.
- by rewrite /quad -/w (conv0 Hw Hsc M0) A0 mulr1.
- by rewrite /quad -/w (conv1 Hw Hsc M0) A1 mulrN1.
- by have := VS 0%N; rewrite big_nat1 M0 M1 A2 A0 mulr1 subrr mul0r addr0 => ->; move: #|F| => b; lia.
- by have := VS 1%N; rewrite big_nat1 M0 M1 A2 A1 mulr1 subrr mul0r addr0 => ->; move: #|F| => b; lia.
move=> e; have := VS e.+2; rewrite big_nat_recl // big_nat_recl // M0 M1 !A2 (M2 0%N) big1 => [|k _].
  rewrite double0 /= !subSS !subn0 expr0 mul1r expr2.
  by move: (quad _ _) (quad _ _) (quad _ _) #|F| => u1 u2 u3 b; lia.
by rewrite !M2 exprS mulrA subrr mul0r.
Qed.
End Quadratic.

Section Second.
Variable F : finFieldType.
Local Notation q := #|F|.
Local Notation Q := (q%:Z).
Hypothesis Ho : odd q.

Section Over.
Variables (L : finFieldType) (emb : {rmorphism F -> L}).
Hypothesis HL : #|L| = (q ^ 2)%N.

Lemma sum_all d (S P : int) :
  (forall x : F, (Q + 1) * single x d = S) -> (forall z, (forall a, emb a != z) -> quad emb z d = P) ->
  (Q + 1) * (\sum_(f <- sqf F d) \sum_z chi (at_ emb z f)) = Q * S + (Q + 1) * (Q * (Q - 1) * P).
Proof.
move=> HS HP; rewrite exchange_big mulr_sumr (bigID (mem (emb @: [set: F]))) /=; congr (_ + _).
  rewrite big_imset /= => [|x y _ _]; last exact: fmorph_inj.
  rewrite (eq_bigr (fun _ => S)) => [|x _].
    by rewrite big_const cardsT iter_addr_0 -mulr_natl natz.
  by rewrite -(HS x); congr (_ * _); apply: eq_bigr => f _; rewrite at_emb chi_emb.
rewrite (eq_bigr (fun _ => (Q + 1) * P)) => [|z Hz]; last first.
  by rewrite -(HP z) // => a; apply: contraNneq Hz => <-; apply: imset_f; rewrite inE.
rewrite big_const iter_addr_0 -mulr_natl natz.
have -> : #|[pred z | z \notin emb @: [set: F]]| = (q * q.-1)%N.
  have := cardsC (emb @: [set: F]); rewrite card_imset ?cardsT; last exact: fmorph_inj.
  rewrite HL (_ : #|~: _| = #|[pred z | z \notin emb @: [set: F]]|); last by apply: eq_card => z; rewrite !inE.
  by move: #|_| #|F| => c [|b]; lia.
by rewrite PoszM predqE; move: #|F| => b; lia.
Qed.

Lemma second_offset_at f : f != 0 ->
  base_offset f 2 = - (\sum_z chi (at_ emb z f) + (~~ odd (size f).-1)%:R).
Proof.
move=> Hf; rewrite (base_offsetE emb Ho Hf HL) -HL (points_chi (oddL Ho HL)) ?map_poly_eq0 //.
rewrite size_map_poly; congr (- (_ + _)); case: (odd _) => //=.
by rewrite lead_coef_map chi_emb // chi_sqr lead_coef_eq0 Hf.
Qed.
End Over.

Lemma offset2_sum d (S P : int) :
  (forall x : F, (Q + 1) * single x d = S) ->
  (forall (L : finFieldType) (emb : {rmorphism F -> L}), #|L| = (q ^ 2)%N ->
     forall z, (forall a, emb a != z) -> quad emb z d = P) ->
  (Q + 1) * (\sum_(f <- sqf F d) base_offset f 2) =
  - (Q * S + (Q + 1) * (Q * (Q - 1) * P) + (Q + 1) * (if odd d then 0 else (size (sqf F d))%:Z)).
Proof.
move=> HS HP; have [L [emb HL]] := extension_exists F (isT : (0 < 2)%N).
rewrite -(sum_all HL HS (HP L emb HL)) -mulrDr -mulrN; congr (_ * _).
rewrite (_ : (if odd d then 0 else (size (sqf F d))%:Z) = \sum_(f <- sqf F d) (~~ odd d)%:R); last first.
  by rewrite big_const_seq count_predT iter_addr_0; case: (odd d); rewrite /= ?mul0rn ?natz.
rewrite -big_split -sumrN big_seq [RHS]big_seq; apply: eq_bigr => f Hf.
rewrite (second_offset_at emb HL (sqf_neq0 Hf)); by move: Hf; rewrite mem_sqf => /andP[_ /eqP->].
Qed.

(** The sum over a non-rational point repeats with period 4. *)
Definition quad_value (d : nat) : int :=
  match (d %% 4)%N with 0%N => Q - 1 | 1%N => - (Q - 1) | 2%N => - (Q * (Q - 1)) | _ => Q * (Q - 1) end.

Lemma quad_valueE (L : finFieldType) (emb : {rmorphism F -> L}) z d : #|L| = (q ^ 2)%N ->
  (forall a, emb a != z) -> quad emb z d = quad_value d.
Proof.
move=> HL Hz; have [H0 H1 H2 H3 H4] := quad_sum Ho HL Hz.
have [m] := ubnP d; elim: m d => // m IH [|[|[|[|d]]]] // Hd.
rewrite H4 IH; last by lia.
by rewrite /quad_value (_ : (d.+4 %% 4 = d %% 4)%N) //; lia.
Qed.

Lemma quad_odd g : quad_value (2 * g).+1 = (Q - 1) * (if odd g then Q else -1).
Proof.
have E : ((2 * g).+1 %% 4 = if odd g then 3 else 1)%N by case: ifP; lia.
by rewrite /quad_value E; case: (odd g); rewrite ?mulrN1 // mulrC.
Qed.

Lemma quad_even g : quad_value (2 * g).+2 = (Q - 1) * (if odd g then 1 else - Q).
Proof.
have E : ((2 * g).+2 %% 4 = if odd g then 0 else 2)%N by case: ifP; lia.
by rewrite /quad_value E; case: (odd g); rewrite ?mulr1 // mulrN mulrC.
Qed.

Lemma second_odd g :
  (Q + 1) * (\sum_(f <- sqf F (2 * g).+1) base_offset f 2) =
  - (Q * (Q - 1) ^+ 2 * (Q ^+ (2 * g).+1 + 1 + (Q + 1) * (if odd g then Q else -1))).
Proof.
rewrite (offset2_sum (fun x => singleE Ho x _) (fun L emb HL z Hz => quad_valueE _ HL Hz)) /= oddM quad_odd.
have -> : (-1) ^+ (2 * g).+1 = -1 :> int by rewrite -signr_odd /= oddM.
rewrite /= mulr0 addr0 expr2; case: (odd g); move: (Q ^+ (2 * g).+1) #|F| => X b; lia.
Qed.

Lemma second_both g :
  \sum_(f <- sqf F (2 * g).+1) base_offset f 2 + \sum_(f <- sqf F (2 * g).+2) base_offset f 2 =
  - (Q * (Q - 1) ^+ 2 * (Q + 1) * (Q ^+ (2 * g) - (-1) ^+ g)).
Proof.
have H1 : Q + 1 != 0 by move: #|F| => b; lia.
apply: (mulfI H1); rewrite [LHS]mulrDr second_odd.
rewrite (offset2_sum (fun x => singleE Ho x _) (fun L emb HL z Hz => quad_valueE _ HL Hz)) /= oddM quad_even /=.
have -> : (-1) ^+ (2 * g).+2 = 1 :> int by rewrite -signr_odd /= oddM.
rewrite size_sqf PoszM predqE -subzn ?leq_exp2l ?(card_gt1 F) // !qX.
rewrite !(exprS Q (2 * g).+1) !(exprS Q (2 * g)) !expr2 -(signr_odd _ g).
by case: (odd g); rewrite ?expr0 ?expr1; move: (Q ^+ (2 * g)) #|F| => X b; lia.
Qed.
End Second.
