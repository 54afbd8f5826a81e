(** The enumerated coefficient vectors as polynomials: completeness and weights. *)
Set Warnings "-notation-overridden,-ambiguous-paths".
From mathcomp Require Import all_ssreflect ssralg ssrnum poly polydiv matrix mxpoly finalg zify.
From Verif Require Import Res ResFacts Tables CurveIter Curve NormalForm FinField TablesSpec CurveSpec.
From Verif Require Import BlockTheorems EnumProofs PolyOrbit OrbitCount Squarefree.

Set Implicit Arguments.
Unset Strict Implicit.
Unset Printing Implicit Defensive.
Import GRing.Theory.
Local Open Scope ring_scope.

Lemma degreesE gn marked : degrees gn marked = requested_degrees gn marked.
Proof. by case: marked; rewrite /degrees /requested_degrees //= ?addn1 ?addn2. Qed.

Section Vec.
Variable F : finFieldType.
Local Notation q := #|F|.
Variables (g : F) (p : nat).
Hypothesis Hg : generator g.
Implicit Types (v : seq nat) (f : {poly F}).

Lemma elt_of_inj i j : (i < q)%N -> (j < q)%N -> elt_of g i = elt_of g j -> i = j.
Proof.
move=> Hi Hj; rewrite /elt_of.
case: eqP => [->|Hin]; case: eqP => [->|Hjn] // /eqP.
- by rewrite eq_sym (negbTE (genX_neq0 Hg _)).
- by rewrite (negbTE (genX_neq0 Hg _)).
by move/eqP => E; apply: (genX_inj Hg) E; slia.
Qed.

Lemma elt_of_eq0 i : (elt_of g i == 0) = (i == q.-1).
Proof. by rewrite /elt_of; case: (i == _); rewrite ?eqxx // (negbTE (genX_neq0 Hg _)). Qed.

Lemma elt_of_surj x : exists2 i, (i < q)%N & elt_of g i = x.
Proof.
have Hq := card_gt1 F.
case: (x =P 0) => [->|/eqP Hx]; first by exists q.-1; [slia|rewrite /elt_of eqxx].
have [i Hi ->] := dlog Hg Hx; exists i; first by slia.
by rewrite /elt_of; case: eqP => // E; slia.
Qed.

Lemma coef_poly_of v i : (i < size v)%N -> (poly_of g v)`_i = elt_of g (nth 0%N v i).
Proof.
move=> Hi; rewrite coef_Poly (nth_map 0%N) //.
Qed.

Lemma size_poly_of v d : size v = d.+1 -> (nth 0 v d < q)%N -> ~~ zpos q v d -> size (poly_of g v) = d.+1.
Proof.
move=> Hs Hl Hz.
have Hc : (poly_of g v)`_d != 0 by rewrite coef_poly_of ?Hs // elt_of_eq0.
apply/eqP; rewrite eqn_leq; apply/andP; split.
  by apply: leq_trans (size_Poly _) _; rewrite size_map Hs.
by rewrite ltnNge; apply/negP => H; rewrite nth_default ?eqxx in Hc.
Qed.

Lemma poly_of_inj v w d : valid q d v -> valid q d w -> poly_of g v = poly_of g w -> v = w.
Proof.
move=> /validP[Hsv Hv] /validP[Hsw Hw] E.
apply: (@eq_from_nth _ 0%N); first by rewrite Hsv Hsw.
move=> i; rewrite Hsv ltnS => Hi; apply: elt_of_inj; [exact: Hv|exact: Hw|].
by rewrite -!coef_poly_of ?Hsv ?Hsw // E.
Qed.

Lemma pick_index x : {i | (i < q)%N & elt_of g i = x}.
Proof.
have H : has (fun i => elt_of g i == x) (iota 0 q).
  by have [i Hi E] := elt_of_surj x; apply/hasP; exists i; rewrite ?mem_iota ?E.
exists (find (fun i => elt_of g i == x) (iota 0 q)).
  by have := H; rewrite has_find size_iota.
apply/eqP; have := nth_find 0%N H; rewrite nth_iota //.
by have := H; rewrite has_find size_iota.
Qed.

Lemma poly_of_surj f d : size f = d.+1 ->
  exists2 v, valid q d v & poly_of g v = f /\ ~~ zpos q v d.
Proof.
move=> Hs; pose idx x := s2val (pick_index x).
have Hidx x : (idx x < q)%N := s2valP (pick_index x).
have Eidx x : elt_of g (idx x) = x := s2valP' (pick_index x).
exists [seq idx x | x <- f].
  by apply/validP; rewrite size_map Hs; split=> // i Hi; rewrite (nth_map 0) ?Hs.
split.
  by rewrite /poly_of -map_comp (eq_map (_ : _ =1 id)) ?map_id ?polyseqK // => x /=; apply: Eidx.
rewrite /zpos (nth_map 0) ?Hs // -elt_of_eq0 Eidx.
exact: lead_neq0 Hs.
Qed.

Lemma nf_poly_of v d : (2 < d)%N -> valid q d v ->
  nfpoly g p d (poly_of g v) = nfpos p q d v.
Proof.
move=> Hd Hv; rewrite /nfpos Hv /=; have /validP[Hs Hval] := Hv.
have Hq := card_gt1 F.
apply: eq_nf => // [i Hi|i Hi|n i Hi].
- by rewrite /zf /zpos coef_poly_of ?Hs // elt_of_eq0.
- rewrite /ofn /opos coef_poly_of ?Hs //.
  have E1 : elt_of g 0 = 1 by rewrite /elt_of; case: eqP => // E; slia.
  apply/eqP/eqP => [E|->//]; apply: elt_of_inj; [exact: Hval|by slia|by rewrite E1].
rewrite /rf /rpos coef_poly_of ?Hs //.
have Hg1 := gcd_le n Hq.
apply/(repP g)/idP => [[j Hj E]|H].
  have Ej : elt_of g j = g ^+ j by rewrite /elt_of; case: eqP => // E'; slia.
  rewrite (_ : nth 0%N v i = j) //; apply: elt_of_inj; [exact: Hval|by slia|by rewrite Ej].
by exists (nth 0%N v i) => //; rewrite /elt_of; case: eqP => // E'; slia.
Qed.

Lemma nfpos_lead d v : nfpos p q d v -> ~~ zpos q v d.
Proof. by rewrite /nfpos /nf => /andP[_ /andP[]]. Qed.

Lemma nfpos_size d v : nfpos p q d v -> size (poly_of g v) = d.+1.
Proof.
move=> H; have Hl := nfpos_lead H; have /andP[/validP[Hs Hv] _] := H.
by apply: size_poly_of => //; apply: Hv.
Qed.

Section List.
Variables (gn : nat) (marked : bool) (vs : seq (seq nat)).
Hypothesis Hgn : (0 < gn)%N.
Hypothesis Hvs : forall v, count_mem v vs = has (fun d => nfpos p q d v) (degrees gn marked).

Lemma mem_vs v : (v \in vs) = has (fun d => nfpos p q d v) (degrees gn marked).
Proof. by rewrite -has_pred1 has_count Hvs; case: (has _ _). Qed.

Lemma vs_uniq : uniq vs.
Proof. by apply: uniq_countmem => v; rewrite Hvs; case: (has _ _). Qed.

Lemma perm_vs : perm_eq [seq poly_of g v | v <- vs]
  (flatten [seq [seq f <- polys F d | nfpoly g p d f] | d <- degrees gn marked]).
Proof.
apply: uniq_perm.
- rewrite map_inj_in_uniq ?vs_uniq // => v w; rewrite !mem_vs => /hasP[d Hd Hv] /hasP[e He Hw] E.
  have Ed : d = e by have := nfpos_size Hv; rewrite E (nfpos_size Hw) => -[].
  subst e; apply: (@poly_of_inj v w d) => //; first by case/andP: Hv.
  by case/andP: Hw.
- have : uniq (degrees gn marked) by exact: iota_uniq.
  elim: (degrees gn marked) => //= d ds IH /andP[Hn Hu]; rewrite cat_uniq IH // andbT.
  rewrite filter_uniq ?polys_uniq //=.
  apply/hasPn => f /flatten_mapP[e He]; rewrite mem_filter mem_polys => /andP[_ /eqP Es].
  apply/negP => /=; rewrite mem_filter mem_polys => /andP[_ /eqP Ed]; move: Hn; rewrite (_ : d = e) ?He //.
  by move: Ed; rewrite Es => -[].
move=> f; apply/mapP/flatten_mapP => [[v]|[d Hd]].
  rewrite mem_vs => /hasP[d Hd Hv] ->; exists d => //.
  rewrite mem_filter mem_polys (nfpos_size Hv) eqxx andbT nf_poly_of ?Hv //.
    exact: degrees_ge Hd.
  by case/andP: Hv.
rewrite mem_filter mem_polys => /andP[Hnf /eqP Hs].
have [v Hv [E Hl]] := poly_of_surj Hs; exists v => //; rewrite mem_vs; apply/hasP; exists d => //.
by rewrite -nf_poly_of ?E //; apply: degrees_ge Hd.
Qed.

End List.
End Vec.

Section Main.
Variable F : finFieldType.
Local Notation q := #|F|.
Variables (g : F) (p : nat).
Hypothesis Hg : generator g.
Hypothesis Hp : p \in [char F].
Hypothesis Hp2 : p != 2%N.
Implicit Types (v : seq nat) (f : {poly F}).
Variables (W gn : nat) (marked : bool) (psz : nat).
Hypothesis HW : (2 * q <= W)%N.
Hypothesis Hgn : (0 < gn)%N.
Hypothesis Hpsz : (0 < psz)%N.

(** The visited vectors, abstractly. *)
Definition enumeration (vs : seq (seq nat)) : Prop :=
  exists N, forall fuel, (N <= fuel)%N -> visited W fuel p q gn marked psz = Ok vs.

Lemma enum_ok : exists vs, enumeration vs /\
  forall v, count_mem v vs = has (fun d => nfpos p q d v) (degrees gn marked).
Proof.
have [vs [N [H1 H2]]] := visited_ok marked Hp2 (card_gt1 F) HW Hgn Hpsz.
by exists vs; split=> //; exists N.
Qed.

Lemma enumeration_fun vs vs' : enumeration vs -> enumeration vs' -> vs = vs'.
Proof.
move=> [N H] [N' H'].
by have := H (maxn N N') (leq_maxl _ _); rewrite (H' _ (leq_maxr _ _)) => -[].
Qed.

Lemma wellformed vs : enumeration vs -> uniq vs /\
  {in vs, forall v, [/\ (size v).-1 \in requested_degrees gn marked, all (fun x => (x < q)%N) v &
                      last 0%N v != q.-1]}.
Proof.
have [vs' [He Hc]] := enum_ok => /(enumeration_fun He) <- {vs}.
split; first exact: vs_uniq Hc.
move=> v; rewrite (mem_vs Hc) => /hasP[d Hd Hv].
have /andP[/andP[/eqP Hs Hall] _] := Hv.
rewrite -degreesE Hs; split=> //.
by have := nfpos_lead Hv; rewrite /zpos -nth_last Hs.
Qed.

Lemma complete vs f : enumeration vs -> (size f).-1 \in requested_degrees gn marked ->
  exists v c a b, [/\ v \in vs, c != 0, a != 0 & f = affine c a b (poly_of g v)].
Proof.
have [vs' [He Hc]] := enum_ok => /(enumeration_fun He) <- {vs}.
rewrite -degreesE => Hd; have Hd3 := degrees_ge Hgn Hd.
have Hs : size f = (size f).-1.+1 by slia.
have [c [a [b [e [Hc0 Ha Hse Hnf Ef]]]]] := equivalent Hg Hp Hp2 Hd3 Hs.
have [v Hv [Ev Hl]] := poly_of_surj Hg Hse.
exists v, c, a, b; split=> //; last by rewrite Ev.
rewrite (mem_vs Hc); apply/hasP; exists (size f).-1 => //.
by rewrite -(nf_poly_of p Hg Hd3 Hv) Ev.
Qed.

(** multiplicity() of an enumerated vector. *)
Definition vmult (v : seq nat) : nat := pmult p (poly_of g v).

Lemma support_of v d r pts : nfpos p q d v -> rhs_support (Curve p r q v pts) = psupp (poly_of g v).
Proof.
move=> Hv; have /andP[/validP[Hs Hval] _] := Hv.
rewrite /rhs_support /psupp (nfpos_size Hg Hv) /= Hs; apply: eq_in_filter => i.
rewrite mem_iota /= add0n ltnS => Hi.
by rewrite coef_poly_of ?Hs // (elt_of_eq0 Hg).
Qed.

Lemma vmult_ok vs r pts : enumeration vs -> {in vs, forall v,
  multiplicity p q (rhs_support (Curve p r q v pts)) = Ok (vmult v)}.
Proof.
have [vs' [He Hc]] := enum_ok => /(enumeration_fun He) <- {vs} v.
rewrite (mem_vs Hc) => /hasP[d Hd Hv]; rewrite (support_of _ _ Hv).
by have [-> _] := pmult_ok Hg Hp Hp2 (nfpos_size Hg Hv).
Qed.

Lemma weights (K : eqType) (key : {poly F} -> K) (tw : K -> K) vs :
  enumeration vs -> involutive tw ->
  (forall f c a b, (size f).-1 \in requested_degrees gn marked -> c != 0 -> a != 0 ->
     key (affine (c ^+ 2) a b f) = key f) ->
  (forall f c, (size f).-1 \in requested_degrees gn marked -> c != 0 -> (forall s, s ^+ 2 != c) ->
     key (c *: f) = tw (key f)) ->
  forall k, (\sum_(d <- requested_degrees gn marked) seq.count (fun f => key f == k) (polys F d) =
    \sum_(v <- vs) vmult v * ((key (poly_of g v) == k) + (tw (key (poly_of g v)) == k)))%N.
Proof.
have [vs' [He Hc]] := enum_ok => /(enumeration_fun He) <- {vs} Htw H1 H2 k.
rewrite -degreesE.
transitivity (\sum_(f <- [seq poly_of g v | v <- vs'])
   pmult p f * ((key f == k) + (tw (key f) == k)))%N; last by rewrite big_map.
rewrite (perm_big _ (perm_vs Hg Hgn Hc)) /= big_flatten /= big_map !big_seq.
apply: eq_bigr => d Hd; rewrite (@weighted_count F g p Hg Hp Hp2 _ key tw d) //.
- rewrite big_filter [RHS]big_mkcond /=; apply: eq_bigr => f _.
  by case: nfpoly; rewrite ?mul1n // mul0n.
- exact: degrees_ge Hd.
- by move=> f c a b Hs; apply: H1; rewrite Hs -degreesE.
by move=> f c Hs; apply: H2; rewrite Hs -degreesE.
Qed.

End Main.

Section Packaged.
Variable F : finFieldType.
Local Notation q := #|F|.
Implicit Types (v : seq nat) (f : {poly F}).
Variables (g : F) (p W gn : nat) (marked : bool) (psz : nat).

Lemma enum_wellformed (H2q : (1 < q)%N) :
  p != 2%N -> (2 * q <= W)%N -> (0 < gn)%N -> (0 < psz)%N ->
  exists vs N, [/\ (forall fuel, (N <= fuel)%N -> visited W fuel p q gn marked psz = Ok vs),
    uniq vs &
    forall v, v \in vs -> [/\ (size v).-1 \in requested_degrees gn marked,
                             all (fun x => (x < q)%N) v & last 0%N v != q.-1]].
Proof.
move=> Hp2 HW Hgn Hpsz.
have [vs [N [H1 Hc]]] := visited_ok marked Hp2 H2q HW Hgn Hpsz.
exists vs, N; split=> //; first exact: vs_uniq Hc.
move=> v; rewrite (mem_vs Hc) => /hasP[d Hd Hv].
have /andP[/andP[/eqP Hs Hall] _] := Hv.
rewrite -degreesE Hs; split=> //.
by have := nfpos_lead Hv; rewrite /zpos -nth_last Hs.
Qed.

Hypothesis Hg : generator g.
Hypothesis Hp : p \in [char F].
Hypothesis Hp2 : p != 2%N.
Hypothesis HW : (2 * q <= W)%N.
Hypothesis Hgn : (0 < gn)%N.
Hypothesis Hpsz : (0 < psz)%N.

Lemma enum_complete :
  exists vs N, (forall fuel, (N <= fuel)%N -> visited W fuel p q gn marked psz = Ok vs) /\
    forall f, (size f).-1 \in requested_degrees gn marked ->
      exists v c a b, [/\ v \in vs, c != 0, a != 0 & f = affine c a b (poly_of g v)].
Proof.
have [vs [[N He] Hc]] := enum_ok Hp2 marked HW Hgn Hpsz.
exists vs, N; split=> // f; apply: (complete Hg Hp Hp2 HW Hgn Hpsz); by exists N.
Qed.

Lemma enum_weights r :
  exists vs N m, [/\ forall fuel, (N <= fuel)%N -> visited W fuel p q gn marked psz = Ok vs,
    forall v, v \in vs -> multiplicity p q (rhs_support (Curve p r q v [::])) = Ok (m v) &
    forall (K : eqType) (key : {poly F} -> K) (tw : K -> K), involutive tw ->
      (forall f c a b, (size f).-1 \in requested_degrees gn marked -> c != 0 -> a != 0 ->
         key (affine (c ^+ 2) a b f) = key f) ->
      (forall f c, (size f).-1 \in requested_degrees gn marked -> c != 0 ->
         (forall s, s ^+ 2 != c) -> key (c *: f) = tw (key f)) ->
      forall k,
        (\sum_(d <- requested_degrees gn marked) seq.count (fun f => key f == k) (polys F d) =
         \sum_(v <- vs) m v * ((key (poly_of g v) == k) + (tw (key (poly_of g v)) == k)))%N].
Proof.
have [vs [[N He] Hc]] := enum_ok Hp2 marked HW Hgn Hpsz.
have He' : @enumeration F p W gn marked psz vs by exists N.
exists vs, N, (vmult g p); split=> //.
- by move=> v Hv; apply: (vmult_ok Hg Hp Hp2 HW Hgn Hpsz _ _ He' Hv).
- by move=> K key tw Htw H1 H2 k; apply: (weights Hg Hp Hp2 HW Hgn Hpsz He').
Qed.

Lemma squarefree_affine c a b f : c != 0 -> a != 0 -> f != 0 ->
  squarefree (affine c a b f) = squarefree f.
Proof.
move=> Hc Ha Hf.
have imp c' a' b' f' : c' != 0 -> a' != 0 -> f' != 0 ->
    squarefree (affine c' a' b' f') -> squarefree f'.
  move=> Hc' Ha' Hf'.
  have Hf2 : affine c' a' b' f' != 0 by rewrite -size_poly_eq0 size_affine // size_poly_eq0.
  move=> /(squarefreeP Hf2) H; apply/(squarefreeP Hf') => h Hd.
  rewrite -(@size_affine _ 1 a' b' h) ?oner_neq0 //; apply: H.
  rewrite /affine scale1r dvdpZr // expr2 -comp_polyM -expr2.
  exact: dvdp_comp_poly.
apply/idP/idP; first exact: imp.
rewrite -{1}(affine_cancel b f Hc Ha); apply: imp; rewrite ?invr_eq0 //.
by rewrite -size_poly_eq0 size_affine // size_poly_eq0.
Qed.

Lemma enum_squarefree r :
  exists vs N m, [/\ forall fuel, (N <= fuel)%N -> visited W fuel p q gn false psz = Ok vs,
    forall v, v \in vs -> multiplicity p q (rhs_support (Curve p r q v [::])) = Ok (m v) &
    (\sum_(v <- vs | squarefree (poly_of g v)) 2 * m v =
     q.-1 * (q ^ (2 * gn + 1) - q ^ (2 * gn)) + q.-1 * (q ^ (2 * gn + 2) - q ^ (2 * gn + 1)))%N].
Proof.
have [vs [[N He] Hc]] := enum_ok Hp2 false HW Hgn Hpsz.
have He' : @enumeration F p W gn false psz vs by exists N.
exists vs, N, (vmult g p); split=> //.
  by move=> v Hv; apply: (vmult_ok Hg Hp Hp2 HW Hgn Hpsz _ _ He' Hv).
have Hnz f : (size f).-1 \in requested_degrees gn false -> f != 0.
  by move=> H; apply/eqP => E; move: H; rewrite E size_poly0 !inE /= !addn1 !addn2.
have /= := @weights _ _ _ Hg Hp Hp2 _ _ false _ HW Hgn Hpsz _ (@squarefree F) id _ He' _ _ _ true.
have E0 : (\sum_(v <- vs | squarefree (poly_of g v)) 2 * vmult g p v =
   \sum_(v <- vs) vmult g p v * ((squarefree (poly_of g v) == true) + (squarefree (poly_of g v) == true)))%N.
  rewrite big_mkcond; apply: eq_bigr => v _; case: squarefree => //=; by rewrite ?muln0 // mulnC.
rewrite E0 !big_cons big_nil addn0 => <- //; last first.
- by move=> f c /Hnz Hf Hc0 _; rewrite squarefree_mulr.
- by move=> f c a b /Hnz Hf Hc0 Ha; rewrite squarefree_affine // expf_neq0.
have Hcnt n : seq.count (fun f => squarefree f == true) (polys F n.+2) =
              (q.-1 * (q ^ n.+2 - q ^ n.+1))%N.
  by rewrite -size_sqf -size_filter; congr size; apply: eq_filter => f; rewrite eqb_id.
have E1 : (2 * gn + 1 = (2 * gn).-1.+2)%N by lia.
have E2 : (2 * gn + 2 = (2 * gn).+2)%N by lia.
have E3 : (2 * gn = (2 * gn).-1.+1)%N by lia.
rewrite {1}E1 {1}E2 !Hcnt; congr (_ * (_ ^ _ - _ ^ _) + _ * (_ ^ _ - _ ^ _))%N; lia.
Qed.
End Packaged.

Lemma mult_exact p q s : odd q -> (1 < q)%N -> s != [::] ->
  exists m k, [/\ multiplicity p q s = Ok m, (k %| q.-1)%N &
    (2 * m * k = q * q.-1 ^ 2)%N \/ (2 * m * k = q.-1 ^ 2)%N].
Proof.
move=> Ho Hq; case/lastP: s => // s d _.
have [m] := mult_gam p d (rev s) Ho Hq; rewrite rev_cons revK => Em E.
exists m, (gam p q d (rev s)); split=> //.
  rewrite /gam; repeat (case: ifP => // _); rewrite ?dvdn_gcdr //.
  by case: (rev s) => // a [|b t] //; apply: dvdn_gcdr.
rewrite E /tot; case: ifP => _; [right|left]; by rewrite ?mulnn -?mulnA ?mulnn.
Qed.

Lemma ctor_total W p q gn marked psz : p != 2%N -> (1 < q)%N -> (2 * q <= W)%N ->
  (0 < gn)%N -> (0 < psz)%N ->
  exists ci N blocks, [/\ mk_citer p q gn marked psz = Ok ci, ~~ ci_is_end ci, size blocks != 0%N &
    forall fuel, (N <= fuel)%N -> ci_iterate W (ci_as_block W) fuel ci = Ok blocks].
Proof.
move=> H1 H2 H3 H4 H5.
have [vs [N [Hv Hc]]] := visited_ok marked H1 H2 H3 H4 H5.
have := Hv N.+1 (leqnSn N); rewrite /visited => H.
have [ci Eci H'] := bind_Ok_inv H.
have [boxes Eb H''] := bind_Ok_inv H'.
have Hne : ~~ ci_is_end ci.
  move: Eci; rewrite /mk_citer (negbTE H1) (gtn_eqF H4) /degrees.
  have [d [ds ->]] : exists d ds, iota (2 * gn + 1) (if marked then 1%N else 2%N) = d :: ds.
    by exists (2 * gn + 1)%N, (if marked then [::] else [:: (2 * gn + 1).+1]); case: (marked).
  rewrite map_cons; have [a [l ->]] : exists a l, args_degree p q d = a :: l.
    rewrite /args_degree; case: ifP => _; last first.
      by case: ifP => _; [exists (args_div_nonzero q d), [:: args_square q d]|exists (args_square q d), [::]].
    case: flatten => [|a l]; first by exists (args_monomial q d), [::].
    by exists a, (l ++ [:: args_monomial q d]).
  move=> /= Hx; have [x _ Hy] := bind_Ok_inv Hx.
  by have [y _ [<-]] := bind_Ok_inv Hy.
exists ci, N.+1, boxes; split=> //.
- case: (ci) Hne Eb => // a l _ /= Hx.
  by have [x _ Hy] := bind_Ok_inv Hx; have [y _ Hz] := bind_Ok_inv Hy;
    have [z _ [<-]] := bind_Ok_inv Hz.
by move=> fuel Hf; exact: (ci_iterate_mono Hf Eb).
Qed.
