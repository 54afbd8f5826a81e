(** The contracts assumed of FLINT can be met: fields with compatible generators and coordinates,
    factorisations and tests for squares exist. *)
Set Warnings "-notation-overridden,-ambiguous-paths".
From mathcomp Require Import all_ssreflect fingroup ssralg zmodp poly polydiv finalg vector finfield zify.
From Verif Require Import FinField TablesSpec NormalForm EnumTheorems CurveSpec PointSpec RamSpec Irred FieldExt CurveProofs CurveTheorems
  Config Worker WorkerSpec.

Set Implicit Arguments.
Unset Strict Implicit.
Unset Printing Implicit Defensive.
Import GRing.Theory.
Local Open Scope ring_scope.

(** ** Coordinates *)
Section Coordinates.
Variables (F : finFieldType) (p r : nat).
Hypothesis Hp : p \in [char F].
Hypothesis Hq : #|F| = (p ^ r)%N.
Hypothesis Hr : (0 < r)%N.
Let pr : prime p. Proof. exact: charf_prime Hp. Qed.
Let V := [vectType 'F_p of PrimeCharType Hp].
Let one : V := (1 : F).
Let U : {vspace V} := <[one]>%VS.
Let B := one :: vbasis (U^C)%VS.

Lemma one_neq0 : one != 0.
Proof. exact: (oner_neq0 F). Qed.

Lemma B_basis : basis_of fullv B.
Proof.
rewrite -(addv_complf U) /B -cat1s; apply: cat_basis.
- by apply/directv_addP; exact: capv_compl.
- exact: (seq1_basis one_neq0).
exact: vbasisP.
Qed.

Lemma size_B : size B = r.
Proof.
rewrite -(size_basis (X := in_tuple B) B_basis) primeChar_dimf.
by rewrite (_ : #|_| = #|F|) // Hq pfactorK.
Qed.

Definition coeff (x : F) (i : nat) : nat :=
  if insub i is Some j then val (coord (in_tuple B) j (x : V)) else 0%N.

Lemma val_Fp_lt (a : 'F_p) : (val a < p)%N.
Proof. by apply: (leq_trans (ltn_ord a)); rewrite (Fp_cast pr). Qed.

Lemma coeffs_exist : coordinates p r coeff.
Proof.
have Hsz := size_B; have Hfree := basis_free B_basis.
have Hadd j (y z : V) : coord (in_tuple B) j (y + z) = coord (in_tuple B) j y + coord (in_tuple B) j z.
  by rewrite linearD.
split=> //; first by rewrite Hr prime_gt1.
- by move=> x i; rewrite /coeff; case: insub => [j|]; [exact: val_Fp_lt|exact: prime_gt0].
- move=> x y H; rewrite [x](coord_basis (X := in_tuple B) B_basis (memvf (x : V))).
  rewrite [y](coord_basis (X := in_tuple B) B_basis (memvf (y : V))).
  apply: eq_bigr => j _; have Hj : (j < r)%N by rewrite -Hsz.
  have Ej : coord (in_tuple B) j (x : V) = coord (in_tuple B) j (y : V).
    by apply: val_inj; have := H j Hj; rewrite /coeff valK.
  by rewrite Ej.
split.
- by move=> i; rewrite /coeff; case: insub => [j|] //; rewrite linear0.
- move=> x; have H0 : (0 < size B)%N by [].
  rewrite /coeff (insubT (fun i => i < size B)%N H0) /=.
  rewrite [coord _ _ _](Hadd _ one x).
  have := coord_free (X := in_tuple B) (Ordinal H0) (Ordinal H0) Hfree; rewrite eqxx => -> /=.
  move: (nat_of_ord (coord _ _ _)) => m; have := Fp_cast pr; move: (Zp_trunc (pdiv p)).+2 => P ->.
  by rewrite modnDml add1n.
move=> x i; rewrite /coeff; case: insubP => [j Hj Ej|] //.
rewrite [coord _ _ _](Hadd _ one x).
have Hc : coord (in_tuple B) j one = 0.
  by rewrite (coord_free (X := in_tuple B) (@Ordinal (size B) 0%N isT) j Hfree) -val_eqE /= Ej.
by rewrite Hc add0r.
Qed.
End Coordinates.

(** ** Factorisations *)
Section Factor.
Variable F : finFieldType.
Implicit Types f : {poly F}.

Lemma factors_exist f : f != 0 -> exists l : seq {poly F},
  all (fun P => (P \is monic) && irreducible P) l /\ f = lead_coef f *: \prod_(P <- l) P.
Proof.
have [n] := ubnP (size f); elim: n f => // n IH f Hn Hf.
have [Hs|Hs] := leqP (size f) 1.
  exists [::]; split=> //; rewrite big_nil [f]size1_polyC // lead_coefC.
  by rewrite -mul_polyC mulr1.
have [P [mP iP /dvdpP[h Eh]]] := exists_factor Hs.
have HP1 : (1 < size P)%N by case/andP: iP.
have Hh : h != 0 by apply: contraNneq Hf => E; rewrite Eh E mul0r.
have Esz : size f = (size h + size P).-1 by rewrite Eh size_Mmonic.
have Hh0 : (0 < size h)%N by rewrite size_poly_gt0.
have [|l [Hl El]] := IH h _ Hh; first by move: Hn Esz HP1 Hh0; move: (size f) (size h) (size P) => a b e; slia.
exists (P :: l); split; first by rewrite /= mP iP.
rewrite big_cons {1}Eh {1}El -scalerAl mulrC; congr (_ *: _).
by rewrite Eh lead_coef_Mmonic.
Qed.

Definition is_factorisation f (Ps : seq ({poly F} * nat)) : bool :=
  [&& uniq [seq Pm.1 | Pm <- Ps],
      all (fun Pm => [&& Pm.1 \is monic, irreducible Pm.1 & (0 < Pm.2)%N]) Ps &
      f == lead_coef f *: \prod_(Pm <- Ps) Pm.1 ^+ Pm.2].

Lemma factorisation_exists f : f != 0 -> exists Ps, is_factorisation f Ps.
Proof.
move=> /factors_exist[l [Hl El]]; exists [seq (P, count_mem P l) | P <- undup l]; apply/and3P; split.
- by rewrite -map_comp map_id_in ?undup_uniq.
- apply/allP => x /mapP[P]; rewrite mem_undup => HP -> /=.
  by have /andP[-> ->] := allP Hl _ HP; rewrite -has_count has_pred1.
rewrite big_map {1}El; apply/eqP; congr (_ *: _).
by rewrite -big_undup_iterop_count; apply: eq_bigr.
Qed.

Definition factor_of f : seq (nat * nat) :=
  if (f != 0) =P true is ReflectT Hf
  then [seq ((size (Pm.1 : {poly F})).-1, Pm.2) | Pm <- (xchoose (factorisation_exists Hf) : seq ({poly F} * nat))]
  else [::].

Lemma factor_of_ok f : f != 0 -> factorisation f (factor_of f).
Proof.
rewrite /factor_of; case: eqP => // Hf _; have /and3P[H1 H2 /eqP H3] := xchooseP (factorisation_exists Hf).
by eexists; split; [exact: H1|exact: H2|exact: H3|].
Qed.
End Factor.

(** ** Fields *)
Section Fields.
Variable c : config.
Let p := g_prime c.
Let r := g_exponent c.

Lemma flint_fields_of (flint : nat -> nat -> flint_field) (K0 : flint_field) (K : nat -> flint_field) :
  flint p r = K0 -> (forall j, (0 < j <= g_count c)%N -> flint p (j * r)%N = K j) ->
  #|ff_field K0| = (p ^ r)%N -> generator (@ff_cand K0 0%N) ->
  (forall j, (0 < j <= g_count c)%N -> coordinates p (j * r) (@ff_coeff (K j)) /\
     exists emb : {rmorphism ff_field K0 -> ff_field (K j)}, compatible emb (@ff_cand K0 0%N) (@ff_cand (K j) 0%N)) ->
  flint_fields flint c.
Proof.
move=> E0 E H1 H2 H3; rewrite /flint_fields /gen_of /field_of -/p -/r E0; split; [|split] => //.
by move=> j Hj; rewrite E //; exact: H3.
Qed.

Lemma choose_upto (P : nat -> flint_field -> Prop) n : (forall j, exists K, P j K) ->
  exists K, forall j, (j <= n)%N -> P j (K j).
Proof.
move=> H; elim: n => [|n [K HK]].
  by have [K0 HK0] := H 0%N; exists (fun _ => K0) => -[|].
have [K1 HK1] := H n.+1; exists (fun j => if j == n.+1 then K1 else K j) => j.
by rewrite leq_eqVlt; case: eqP => [-> _|_ /=]; [|exact: HK].
Qed.

Lemma flint_exists : prime p -> (0 < r)%N -> exists flint, flint_fields flint c.
Proof.
move=> Hp Hr.
have [F [emb0 HF0]] := extension_exists [finFieldType of 'F_p] Hr.
have HF : #|F| = (p ^ r)%N by rewrite HF0 card_Fp.
have HpF : p \in [char F] by rewrite (rmorph_char emb0) // char_Fp.
have [g Hg] := exists_generator F.
pose K0 := @FlintField F (coeff HpF) (fun _ => g).
have [K HK] : exists K : nat -> flint_field, forall j, (j <= g_count c)%N -> (0 < j)%N ->
    coordinates p (j * r) (@ff_coeff (K j)) /\
    exists emb : {rmorphism F -> ff_field (K j)}, compatible emb g (@ff_cand (K j) 0%N).
  apply: (@choose_upto (fun j K => (0 < j)%N -> coordinates p (j * r) (@ff_coeff K) /\
    exists emb : {rmorphism F -> ff_field K}, compatible emb g (@ff_cand K 0%N))) => j.
  case: j => [|j]; first by exists K0.
  have [L [emb HL]] := extension_exists F (ltn0Sn j).
  have [G HG] := compatible_exists emb Hg HL.
  have HpL : p \in [char L] by rewrite (rmorph_char emb).
  exists (@FlintField L (coeff HpL) (fun _ => G)) => _; split; last by exists emb.
  by apply: coeffs_exist; rewrite ?HL ?HF -?expnM 1?mulnC // muln_gt0 Hr.
pose flint (_ k : nat) := if k == r then K0 else K (k %/ r)%N.
exists flint; apply: (@flint_fields_of flint K0 (fun j => if j == 1%N then K0 else K j)) => //.
- by rewrite /flint eqxx.
- move=> j /andP[Hj _]; rewrite /flint -{2}(mul1n r) eqn_pmul2r // mulnK //.
move=> j /andP[Hj0 Hj]; case: eqP => [->|_]; last exact: HK.
rewrite mul1n; split; first exact: coeffs_exist.
exists [rmorphism of @idfun F]; split=> //=.
by rewrite divnn; have := pred_q_gt0 F; case: ltnP => // _ _; rewrite expr1.
Qed.

(** A field, squarefreeness and factorisations for a configuration. *)
Definition squarefree_of (flint : nat -> nat -> flint_field) (p r : nat) (cs : seq (ff_field (flint p r))) : bool :=
  squarefree (Poly cs).
Definition factor_in (flint : nat -> nat -> flint_field) (p r : nat) (v : seq nat) : seq (nat * nat) :=
  factor_of (poly_of (@ff_cand (flint p r) 0%N) v).

Lemma flint_polys_ok flint : flint_fields flint c -> flint_polys (@squarefree_of flint) (factor_in flint) c.
Proof.
move=> [_ [Hg _]]; split=> // v Ha Hs Hl; apply: factor_of_ok.
have Es : size v = (size v).-1.+1 by slia.
rewrite -size_poly_gt0 (size_poly_of Hg Es) ?/zpos ?nth_last //.
by apply: (allP Ha); case: (v) Hs => //= x l _; exact: mem_last.
Qed.
End Fields.
