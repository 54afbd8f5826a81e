(** Lemmas for the concrete cases beside the theorems: polynomials that split into distinct
    linear factors. *)
Set Warnings "-notation-overridden,-ambiguous-paths".
From mathcomp Require Import all_ssreflect ssralg poly polydiv finalg separable zify.
From Verif Require Import FinField TablesSpec CurveSpec Squarefree RamSpec Irred.

Set Implicit Arguments.
Unset Strict Implicit.
Unset Printing Implicit Defensive.
Import GRing.Theory.
Local Open Scope ring_scope.

Section Split.
Variables (F : finFieldType).
Implicit Types (f : {poly F}) (rs : seq F).

Lemma split_form f rs : size f = (size rs).+1 -> all (root f) rs -> uniq rs ->
  f = lead_coef f *: \prod_(x <- rs) ('X - x%:P).
Proof. by move=> Hs Hr Hu; apply: all_roots_prod_XsubC; rewrite ?uniq_rootsE. Qed.

Lemma split_squarefree f rs : size f = (size rs).+1 -> all (root f) rs -> uniq rs -> squarefree f.
Proof.
move=> Hs Hr Hu; have Hf : f != 0 by rewrite -size_poly_eq0 Hs.
apply/(squarefreeP Hf) => h Hh.
have Hsep : separable_poly f.
  by rewrite (split_form Hs Hr Hu) /separable_poly derivZ coprimepZl ?coprimepZr ?lead_coef_eq0 //;
     have := separable_prod_XsubC rs; rewrite Hu /separable_poly => ->.
have [Hc _] := separable_polyP Hsep.
have := Hc h h; rewrite -expr2 Hh => /(_ isT).
by rewrite coprimepp => /eqP ->.
Qed.

Lemma split_factorisation f rs : size f = (size rs).+1 -> all (root f) rs -> uniq rs ->
  factorisation f (nseq (size rs) (1, 1)%N).
Proof.
move=> Hs Hr Hu; exists [seq ('X - x%:P, 1%N) | x <- rs]; split.
- rewrite -map_comp map_inj_uniq // => x y /= /addrI/oppr_inj; exact: polyC_inj.
- apply/allP => Pm /mapP[x _ ->] /=; rewrite monicXsubC andbT /irreducible size_XsubC //=.
- by rewrite big_map {1}(split_form Hs Hr Hu); congr (_ *: _); apply: eq_bigr => x _; rewrite expr1.
- by rewrite -map_comp; elim: rs {Hs Hr Hu} => [|x rs IH] //=; rewrite size_XsubC IH.
Qed.
End Split.
