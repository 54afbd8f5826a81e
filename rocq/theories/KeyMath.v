(** Keys of polynomials: invariance under substitutions and ranges of the entries. *)
Set Warnings "-notation-overridden,-ambiguous-paths".
From mathcomp Require Import all_ssreflect ssralg ssrnum ssrint poly polydiv finalg zify.
From Verif Require Import FinField CurveSpec PolyOrbit Squarefree RamSpec Irred PointSpec PointCount CurveProofs PointMath
  CurveHistory FieldExt OMap Store TwistProofs EnumTheorems TextSpec.

Set Implicit Arguments.
Unset Strict Implicit.
Unset Printing Implicit Defensive.
Import GRing.Theory.
Local Open Scope ring_scope.

Section Keys.
Variable F : finFieldType.
Implicit Types f P h : {poly F}.
Local Notation q := #|F|.

Lemma affine_dvd c a b f h c' : c != 0 -> c' != 0 -> a != 0 -> h %| f -> affine c' a b h %| affine c a b f.
Proof.
move=> Hc Hc' Ha Hd; rewrite /affine dvdpZl // dvdpZr //; exact: dvdp_comp_poly.
Qed.

Lemma irreducible_affine c a b P : c != 0 -> a != 0 -> irreducible P -> irreducible (affine c a b P).
Proof.
move=> Hc Ha /irreducibleP[Hs Hi]; apply/irreducibleP; split; first by rewrite size_affine.
move=> h Hh Hd.
have Hci : c^-1 != 0 by rewrite invr_eq0.
have Hai : a^-1 != 0 by rewrite invr_eq0.
have := affine_dvd (- (a^-1 * b)) Hci Hci Hai Hd; rewrite affine_cancel // => Hd'.
have E : size (affine c^-1 a^-1 (- (a^-1 * b)) h) = size h by rewrite size_affine.
have := Hi _ _ Hd'; rewrite E => /(_ Hh)/eqp_size; rewrite E => Es.
by rewrite -dvdp_size_eqp // Es size_affine.
Qed.

Definition move_prime (a b : F) P : {poly F} := affine (a ^- (size P).-1) a b P.

Lemma lead_affine c a b f : a != 0 -> lead_coef (affine c a b f) = c * (a ^+ (size f).-1 * lead_coef f).
Proof.
move=> Ha; have Hb : (size (b%:P : {poly F}) < size (a *: 'X : {poly F}))%N.
  by rewrite size_scale // size_polyX; exact: leq_ltn_trans (size_polyC_leq1 b) _.
rewrite /affine lead_coefZ lead_coef_comp.
  by rewrite lead_coefDl // lead_coefZ lead_coefX mulr1 [_ * lead_coef f]mulrC.
by rewrite size_addl // size_scale // size_polyX.
Qed.

Lemma count_primes_affine e c a b f : c != 0 -> a != 0 -> f != 0 ->
  (seq.count (fun P : {poly F} => (size P).-1 == e) (prime_divisors f) <=
   seq.count (fun P : {poly F} => (size P).-1 == e) (prime_divisors (affine c a b f)))%N.
Proof.
move=> Hc Ha Hf; have Hae : a ^- e != 0 by rewrite invr_eq0 expf_neq0.
have Hf' : affine c a b f != 0 by rewrite -size_poly_eq0 size_affine // size_poly_eq0.
rewrite -!size_filter -(size_map (affine (a ^- e) a b)); apply: uniq_leq_size.
  rewrite map_inj_uniq; first by apply: filter_uniq; exact: prime_divisors_uniq.
  exact: affine_inj.
move=> P' /mapP[P]; rewrite mem_filter mem_prime_divisors // => /andP[/eqP He /and3P[Hm Hi Hd]] ->.
rewrite mem_filter mem_prime_divisors // size_affine // He eqxx irreducible_affine // affine_dvd // andbT.
by rewrite andTb andbT; apply/eqP; rewrite lead_affine // He (eqP Hm) mulr1 mulVf ?expf_neq0.
Qed.

Lemma ramification_affine c a b f : c != 0 -> a != 0 -> f != 0 ->
  ramification (affine c a b f) = ramification f.
Proof.
move=> Hc Ha Hf; rewrite /ramification size_affine //.
have Hf' : affine c a b f != 0 by rewrite -size_poly_eq0 size_affine // size_poly_eq0.
apply/(perm_sortP leq_total leq_trans anti_leq).
rewrite perm_cat2l; apply/permP => A; rewrite !count_map.
have E e : seq.count (fun P : {poly F} => (size P).-1 == e) (prime_divisors (affine c a b f)) =
           seq.count (fun P : {poly F} => (size P).-1 == e) (prime_divisors f).
  apply/eqP; rewrite eqn_leq count_primes_affine // andbT.
  rewrite -{2}(affine_cancel b f Hc Ha) count_primes_affine // invr_eq0 //.
have : perm_eq [seq (size (P : {poly F})).-1 | P <- prime_divisors (affine c a b f)]
               [seq (size (P : {poly F})).-1 | P <- prime_divisors f].
  by apply/allP => e _ /=; rewrite !count_map; apply/eqP; exact: E.
by move/permP => /(_ A); rewrite !count_map.
Qed.

Lemma base_key_affine n c a b f : odd q -> c != 0 -> a != 0 -> f != 0 ->
  base_key n (affine (c ^+ 2) a b f) = base_key n f.
Proof.
move=> Ho Hc Ha Hf; have Hc2 : c ^+ 2 != 0 by rewrite expf_neq0.
have Hf' : affine (c ^+ 2) a b f != 0 by rewrite -size_poly_eq0 size_affine // size_poly_eq0.
rewrite /base_key ramification_affine //; congr pair; apply: eq_mkseq => j.
have [L [emb HL]] := extension_exists F (ltn0Sn j).
have HoL : odd #|L| by rewrite HL oddX Ho orbT.
rewrite !(base_offsetE emb Ho _ HL) //; congr (_ - Posz _).
have HfL : map_poly emb f != 0 by rewrite map_poly_eq0.
have -> : map_poly emb (affine (c ^+ 2) a b f) = affine (emb c ^+ 2) (emb a) (emb b) (map_poly emb f).
  by rewrite /affine map_polyZ map_comp_poly rmorphD /= map_polyZ map_polyX map_polyC rmorphX.
have Hce : emb c != 0 by rewrite fmorph_eq0.
have Hae : emb a != 0 by rewrite fmorph_eq0.
have HfL' : affine (emb c ^+ 2) (emb a) (emb b) (map_poly emb f) != 0.
  by rewrite -size_poly_eq0 size_affine ?expf_neq0 // size_poly_eq0.
have := counts_affine HoL (emb b) Hce Hae HfL; rewrite !true_countsE // => -[E1 E2].
by rewrite !points_split // E1 E2.
Qed.

(** Ranges *)
Lemma exists_nonsquare : odd q -> exists s : F, s != 0 /\ ~~ sqnz s.
Proof.
move=> Ho; have [g Hg] := exists_generator F; exists g; split; first exact: gen_neq0.
by rewrite -[g]expr1 (sqnz_genX Ho Hg).
Qed.

Lemma key_printable M n f : odd q -> (1 < size f)%N -> (size f <= M)%N -> (0 < n)%N -> (q ^ n + 1 < M)%N ->
  (1 < M)%N -> printable M (base_key n f).
Proof.
move=> Ho Hs HsM Hn HM HM1; have Hf : f != 0 by rewrite -size_poly_gt0; lia.
have Hmem e : e \in ramification f -> (e < M)%N.
  rewrite mem_sort mem_cat => /orP[|/mapP[P]].
    by case: ifP; rewrite ?inE // => _ /eqP->.
  rewrite mem_prime_divisors // => /and3P[_ _ /(dvdp_leq Hf) H] ->.
  by move: H HsM Hs; move: (size P) (size f) => x y; slia.
apply/and4P; split.
- have [P [H1 H2 H3]] := exists_factor Hs.
  have : (size P).-1 \in ramification f.
    rewrite mem_sort mem_cat; apply/orP; right; apply: map_f.
    by rewrite mem_prime_divisors // H1 H2.
  by rewrite /base_key /=; case: (ramification f).
- by apply/allP => e /Hmem.
- by rewrite /base_key /= -size_eq0 size_mkseq -lt0n.
apply/allP => z /mapP[j]; rewrite mem_iota => /andP[_ Hj] ->.
have [L [emb HL]] := extension_exists F (ltn0Sn j).
have HoL : odd #|L| by rewrite HL oddX Ho orbT.
have HfL : map_poly emb f != 0 by rewrite map_poly_eq0.
have [s [Hs0 Hsn]] : exists s : L, s != 0 /\ ~~ sqnz s.
  have [G HG] := exists_generator L; exists G; split; first exact: gen_neq0.
  by rewrite -[G]expr1 (sqnz_genX HoL HG).
have [Hpt _] := points_twist HoL Hs0 Hsn HfL.
have HQ : (q ^ j.+1 <= q ^ n)%N by rewrite leq_pexp2l ?card_gt1 //; slia.
rewrite (base_offsetE emb Ho Hf HL) /in_int; move: Hpt HQ HM; rewrite HL.
move: (curve_points _) (curve_points _) (q ^ j.+1)%N (q ^ n)%N => x y Q Qn; lia.
Qed.

Lemma printable_twist M n f : odd q -> (1 < size f)%N -> (size f <= M)%N -> (0 < n)%N -> (q ^ n + 1 < M)%N ->
  (1 < M)%N -> printable M (twist (base_key n f)).
Proof.
move=> Ho Hs HsM Hn HM HM1; have Hf : f != 0 by rewrite -size_poly_gt0; lia.
have [s [Hs0 Hsn]] := exists_nonsquare Ho.
by rewrite -(base_key_twist n Ho Hs0 Hsn Hf); apply: key_printable; rewrite ?size_scale.
Qed.
End Keys.
