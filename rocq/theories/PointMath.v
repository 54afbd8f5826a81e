(** Point counts do not depend on the representation of the extension field; behaviour under
    substitutions and twists. *)
Set Warnings "-notation-overridden,-ambiguous-paths".
From mathcomp Require Import all_ssreflect ssralg poly polydiv finalg finfield zify.
From Verif Require Import FinField CurveSpec PointSpec PointCount.

Set Implicit Arguments.
Unset Strict Implicit.
Unset Printing Implicit Defensive.
Import GRing.Theory.
Local Open Scope ring_scope.

Section Split.
Variable L : finFieldType.
Implicit Types (P : {poly L}).

Lemma card_roots_split P : P %| 'X^#|L| - 'X -> #|[set x | root P x]| = (size P).-1.
Proof.
rewrite finField_genPoly => Hd.
have HP0 : P != 0.
  apply: contraTneq Hd => ->; rewrite dvd0p.
  exact: (monic_neq0 (monic_prod_XsubC _ _ _)).
move: Hd; rewrite -[\prod_x _]big_enum => /(dvdp_prod_XsubC) [m Hm].
rewrite (eqp_size Hm) size_prod_XsubC /=.
rewrite cardE; apply: perm_size; apply: uniq_perm; rewrite ?enum_uniq ?mask_uniq ?enum_uniq //.
move=> x; rewrite mem_enum inE (eqp_root Hm) root_prod_XsubC //.
Qed.
End Split.

Section Gcd.
Variables (F L : finFieldType) (emb : {rmorphism F -> L}).
Local Notation Q := #|L|.
Implicit Type h : {poly F}.

Lemma map_XQ : map_poly emb ('X^Q - 'X) = 'X^Q - 'X.
Proof. by rewrite rmorphB rmorphX /= map_polyX. Qed.

Lemma card_roots_gcd h : #|[set x | root (map_poly emb h) x]| = (size (gcdp h ('X^Q - 'X))).-1.
Proof.
rewrite -(size_map_poly emb) gcdp_map map_XQ -card_roots_split ?dvdp_gcdr //.
apply: eq_card => x; rewrite !inE root_gcd finField_genPoly.
by rewrite -[\prod_x _]big_enum root_prod_XsubC mem_enum andbT.
Qed.

Hypothesis Hodd : odd Q.

Lemma sqnz_emb (a : F) : a != 0 -> sqnz (emb a) = (a ^+ (Q.-1)./2 == 1).
Proof.
move=> Ha; have [G HG] := exists_generator L.
by rewrite -(euler Hodd HG) ?fmorph_eq0 // -rmorphX -(rmorph1 emb) (inj_eq (fmorph_inj emb)).
Qed.

Lemma card_squares h : (1 < Q)%N -> #|[set x | sqnz (map_poly emb h).[x]]| =
  (size (gcdp (h ^+ (Q.-1)./2 - 1) ('X^Q - 'X))).-1.
Proof.
move=> HQ; have [G HG] := exists_generator L.
rewrite -card_roots_gcd; apply: eq_card => x; rewrite !inE.
rewrite rmorphB rmorphX rmorph1 /= /root !hornerE horner_exp subr_eq0.
set y := _.[x]; case: (y =P 0) => [->|/eqP Hy]; last by rewrite -(euler Hodd HG).
rewrite /sqnz eqxx /= expr0n -/(nat_of_bool _); have := pred_even Hodd; have := pred_q_gt0 L.
by case: ((Q.-1)./2) => [|n] _ /=; [slia|rewrite eq_sym oner_eq0].
Qed.
End Gcd.

(** The counts in terms of the base field alone. *)
Definition base_counts (F : finFieldType) (Q : nat) (f : {poly F}) : nat * nat :=
  ((2 * ((size (gcdp (f ^+ (Q.-1)./2 - 1) ('X^Q - 'X))%R).-1 +
         (~~ odd (size f).-1 && (lead_coef f ^+ (Q.-1)./2 == 1)%R : nat)))%N,
   ((size (gcdp f ('X^Q - 'X))%R).-1 + odd (size f).-1)%N).

Lemma base_countsE (F L : finFieldType) (emb : {rmorphism F -> L}) (f : {poly F}) :
  odd #|L| -> f != 0 -> true_counts (map_poly emb f) = base_counts #|L| f.
Proof.
move=> Hodd Hf; rewrite true_countsE ?map_poly_eq0 //.
rewrite /base_counts /unramified /ramified_points size_map_poly.
rewrite -(card_roots_gcd emb f) -(card_squares emb) ?card_gt1 // lead_coef_map.
by rewrite (sqnz_emb emb Hodd) ?lead_coef_eq0.
Qed.

Lemma rep_indep (F L L' : finFieldType) (emb : {rmorphism F -> L}) (emb' : {rmorphism F -> L'})
    (f : {poly F}) : odd #|L| -> #|L| = #|L'| -> f != 0 ->
  true_counts (map_poly emb f) = true_counts (map_poly emb' f).
Proof. by move=> Ho E Hf; rewrite !base_countsE // -?E. Qed.

(** ** Substitutions and twists over one field *)
Section Affine.
Variable L : finFieldType.
Local Notation Q := #|L|.
Hypothesis Hodd : odd Q.
Implicit Types (f : {poly L}) (a b c : L).

Lemma sqnzM a c : c != 0 -> sqnz (c * a) = (a != 0) && (sqnz c == sqnz a).
Proof.
move=> Hc; have [G HG] := exists_generator L; have [i Hi ->] := dlog HG Hc.
case: (a =P 0) => [->|/eqP Ha]; first by rewrite mulr0 /sqnz eqxx.
have [j Hj ->] := dlog HG Ha; rewrite -exprD !(sqnz_genX Hodd HG) oddD.
by case: (odd i); case: (odd j).
Qed.

Lemma sqnz_sqr c : c != 0 -> sqnz (c ^+ 2).
Proof. by move=> Hc; rewrite /sqnz expf_neq0 //=; apply/existsP; exists c. Qed.

Lemma lin_bij a b : a != 0 -> bijective (fun x : L => a * x + b).
Proof.
move=> Ha; exists (fun y => a^-1 * (y - b)) => x; first by rewrite addrK mulKf.
by rewrite mulVKf // subrK.
Qed.

Lemma hornerA c a b f x : (affine c a b f).[x] = c * f.[a * x + b].
Proof. by rewrite /affine hornerZ horner_comp !hornerE. Qed.

Lemma card_lin (P : pred L) a b : a != 0 -> #|[set x | P (a * x + b)]| = #|[set x | P x]|.
Proof.
move=> Ha; rewrite -[RHS](on_card_preimset (f := fun x => a * x + b)).
  by apply: eq_card => x; rewrite !inE.
exact: onW_bij (lin_bij b Ha).
Qed.

Lemma size_aff c a b f : c != 0 -> a != 0 -> size (affine c a b f) = size f.
Proof.
move=> Hc Ha; rewrite /affine size_scale // size_comp_poly2 //.
by rewrite size_addl size_scale ?size_polyX // size_polyC; case: eqP.
Qed.

Lemma lead_aff c a b f : a != 0 -> lead_coef (affine c a b f) = c * (lead_coef f * a ^+ (size f).-1).
Proof.
move=> Ha; rewrite /affine lead_coefZ lead_coef_comp; last first.
  by rewrite size_addl size_scale ?size_polyX // size_polyC; case: eqP.
congr (_ * (_ * _ ^+ _)).
by rewrite lead_coefDl ?lead_coefZ ?lead_coefX ?mulr1 // size_scale ?size_polyX // size_polyC; case: eqP.
Qed.

Lemma counts_affine c a b f : c != 0 -> a != 0 -> f != 0 ->
  true_counts (affine (c ^+ 2) a b f) = true_counts f.
Proof.
move=> Hc Ha Hf; have Hc2 : c ^+ 2 != 0 by rewrite expf_neq0.
have Hs := size_aff b f Hc2 Ha.
have Hnz : affine (c ^+ 2) a b f != 0 by rewrite -size_poly_eq0 Hs size_poly_eq0.
have Hsq y : sqnz (c ^+ 2 * y) = sqnz y.
  by rewrite sqnzM // sqnz_sqr //; case E: (sqnz y); rewrite ?andbF //= andbT; case/andP: E.
rewrite !true_countsE // /unramified /ramified_points Hs.
congr pair.
  congr (2 * (_ + nat_of_bool _))%N.
    rewrite -(card_lin (fun x => sqnz f.[x]) b Ha).
    by apply: eq_card => x; rewrite !inE hornerA Hsq.
  rewrite lead_aff // Hsq; case Ho: odd => //=.
  rewrite mulrC sqnzM ?expf_neq0 // lead_coef_eq0 Hf /=.
  have -> : a ^+ (size f).-1 = (a ^+ (size f).-1./2) ^+ 2.
    by rewrite -exprM muln2; congr (_ ^+ _); slia.
  by rewrite sqnz_sqr ?expf_neq0 //; case: sqnz.
congr (_ + _)%N; rewrite -(card_lin (fun x => root f x) b Ha).
by apply: eq_card => x; rewrite !inE /root hornerA mulf_eq0 (negbTE Hc2).
Qed.

(** Twisting by a non-square exchanges the roles of squares and non-squares. *)
Lemma points_twist c f : c != 0 -> ~~ sqnz c -> f != 0 ->
  (curve_points (c *: f) + curve_points f = 2 * Q + 2)%N /\
  ramified_points (c *: f) = ramified_points f.
Proof.
move=> Hc Hn Hf; have Hcf : c *: f != 0 by rewrite scale_poly_eq0 (negbTE Hc).
have Hroot x : root (c *: f) x = root f x by rewrite rootZ.
have Hr : ramified_points (c *: f) = ramified_points f.
  by rewrite /ramified_points size_scale //; congr (_ + _)%N; apply: eq_card => x; rewrite !inE Hroot.
split=> //; rewrite !points_split // Hr /unramified /ramified_points size_scale // lead_coefZ.
have Hsq y : sqnz (c * y) = (y != 0) && ~~ sqnz y by rewrite sqnzM // (negbTE Hn); case: sqnz.
have -> : #|[set x | sqnz (c *: f).[x]%R]| = #|[set x | ~~ root f x && ~~ sqnz f.[x]%R]|.
  by apply: eq_card => x; rewrite !inE hornerZ Hsq.
rewrite Hsq lead_coef_eq0 Hf /=.
have E : (#|[set x | ~~ root f x && ~~ sqnz f.[x]%R]| + #|[set x | sqnz f.[x]%R]| +
          #|[set x | root f x]| = Q)%N.
  rewrite -!sum1dep_card -[RHS]sum1_card.
  rewrite (big_mkcond (fun x => _ && _)) (big_mkcond (fun x => sqnz _)) (big_mkcond (fun x => root _ _)).
  rewrite -!big_split /=; apply: eq_bigr => x _.
  rewrite /root /sqnz; case: eqP => //= _; by case: existsP.
move: E; move: #|_| #|_| #|_| => A B C E.
by case: odd; case: sqnz => /=; slia.
Qed.

Lemma counts_square_twist c f : sqnz c -> f != 0 -> true_counts (c *: f) = true_counts f.
Proof.
case/andP=> Hc /existsP[s /eqP Es] Hf.
have Hs : s != 0 by apply: contraNneq Hc => E; rewrite -Es E expr0n.
have := counts_affine 0 Hs (oner_neq0 L) Hf.
by rewrite /affine scale1r polyC0 addr0 comp_polyXr Es.
Qed.
End Affine.

(** Non-squares of the base field in an extension. *)
Lemma sqnz_ext (F L : finFieldType) (emb : {rmorphism F -> L}) (c : F) m :
  odd #|F| -> #|L| = (#|F| ^ m)%N -> c != 0 -> sqnz (emb c) = sqnz c || ~~ odd m.
Proof.
move=> Ho E Hc; have HoL : odd #|L| by rewrite E oddX Ho orbT.
have [g Hg] := exists_generator F.
rewrite (sqnz_emb emb HoL Hc) -(euler Ho Hg Hc).
have [n En] : exists2 n, #|L|.-1./2 = (#|F|.-1./2 * n)%N & odd n = odd m.
  exists (\sum_(i < m) #|F| ^ i)%N.
    rewrite E predn_exp {1}(pred_even Ho) -doubleMl half_double //.
  elim: m {E} => [|m IH]; first by rewrite big_ord0.
  by rewrite big_ord_recr /= oddD oddX Ho orbT addbT IH.
move=> Hn; rewrite En exprM.
have : c ^+ #|F|.-1./2 == 1 \/ c ^+ #|F|.-1./2 == -1.
  have : (c ^+ #|F|.-1./2) ^+ 2 == 1 by rewrite -exprM muln2 -(pred_even Ho) expf_pred.
  by rewrite -{1}(expr1n _ 2) eqf_sqr => /orP.
case=> /eqP ->; first by rewrite expr1n eqxx.
rewrite -signr_odd Hn; case: (odd m) => /=; last by rewrite expr0 eqxx orbT.
by rewrite expr1 orbF.
Qed.
