(** Construction, genus and coefficient conversion of curves: the statements used in
    PropCurve.v. *)
Set Warnings "-notation-overridden,-ambiguous-paths".
From mathcomp Require Import all_ssreflect ssralg ssrint poly polydiv finalg zify.
From Verif Require Import Res ResFacts FinField Tables TablesSpec TablesProofs CurveSpec Curve PointSpec PointCount
  CurveProofs PointMath CurveHistory.

Set Implicit Arguments.
Unset Strict Implicit.
Unset Printing Implicit Defensive.
Import GRing.Theory.
Local Open Scope ring_scope.

Lemma strip_revE z rv : has (fun x => x != z) rv ->
  exists n x rv', [/\ strip_rev z rv = Ok (x :: rv'), x != z & rv = nseq n z ++ x :: rv'].
Proof.
elim: rv => [|y rv IH] //=; case: eqP => [-> /IH|/eqP Hy _].
  by case=> n [x [rv' [-> Hx ->]]]; exists n.+1, x, rv'.
by exists 0%N, y, rv.
Qed.

Lemma strip_rev_zero z rv : all (fun x => x == z) rv -> strip_rev z rv = Undef.
Proof. by elim: rv => [|y rv IH] //= /andP[-> /IH]. Qed.

Lemma Poly_zeros (R : fieldType) (s : seq R) n : Poly (s ++ nseq n 0) = Poly s.
Proof.
elim: s => [|x s IH] /=; last by rewrite IH.
by elim: n => [|n IH] //=; rewrite IH cons_poly_def mul0r addr0.
Qed.

Lemma mk_curve_ok (F : finFieldType) (g : F) p r (v : seq nat) : generator g ->
  has (fun x => x != #|F|.-1) v ->
  exists c n,
    [/\ mk_curve p r #|F| v = Ok c,
        [/\ c_prime c = p, c_exponent c = r, c_power c = #|F| & c_points c = [::]],
        v = c_coeffs c ++ nseq n #|F|.-1, last 0%N (c_coeffs c) != #|F|.-1 &
        poly_of g (c_coeffs c) = poly_of g v /\ degree c = (size (poly_of g v)).-1].
Proof.
move=> Hg Hv; rewrite /mk_curve /zero_index.
have [|n [x [rv' [E Hx Erv]]]] := @strip_revE #|F|.-1 (rev v); first by rewrite has_rev.
rewrite E {1}/bind; exists (Curve p r #|F| (rev (x :: rv')) [::]), n.
have Ev : v = rev (x :: rv') ++ nseq n #|F|.-1.
  rewrite -[v]revK Erv rev_cat; congr (_ ++ _); apply: (@eq_from_nth _ 0%N); first by rewrite size_rev.
  by move=> i; rewrite size_rev size_nseq => Hi; rewrite nth_rev ?size_nseq // !nth_nseq Hi; case: ifP => //; slia.
have Hl : last 0%N (rev (x :: rv')) != #|F|.-1 by rewrite rev_cons last_rcons.
have Ep : poly_of g (rev (x :: rv')) = poly_of g v.
  rewrite [in RHS]Ev /poly_of map_cat (_ : [seq _ | i <- nseq _ _] = nseq n 0) ?Poly_zeros //.
  by rewrite map_nseq /elt_of eqxx.
split=> //; split=> //; rewrite -Ep /degree /= /poly_of (@PolyK _ 1) ?size_map //.
rewrite rev_cons map_rcons last_rcons elt_eq0 //.
Qed.

Lemma mk_curve_zero p r q v : all (fun x => x == q.-1) v -> mk_curve p r q v = Undef.
Proof. by move=> H; rewrite /mk_curve /zero_index strip_rev_zero // all_rev. Qed.

Lemma genus_ok W c : (0 < degree c)%N -> (size (c_coeffs c) < W)%N ->
  (odd (degree c) /\ degree c = (2 * genus W c + 1)%N \/
   ~~ odd (degree c) /\ degree c = (2 * genus W c + 2)%N) /\
  forall sq pts, (pts.2 < W.-1)%N -> (at_infinity W c sq pts).2 = (pts.2 + odd (degree c))%N.
Proof.
move=> Hd HW; split.
  by have := genusE Hd HW; case: odd => E; [left|right].
move=> sq pts Hp; rewrite at_infinityE //; case: odd => /=; last by case: sq; rewrite addn0.
by rewrite /uadd modn_small //; slia.
Qed.

Lemma convert_spec (F L : finFieldType) (emb : {rmorphism F -> L}) (g : F) (G : L) (p r k W : nat) v pts t :
  generator g -> compatible emb g G -> (1 < p)%N -> (0 < r)%N -> #|F| = (p ^ r)%N -> #|L| = (p ^ k)%N ->
  (r %| k)%N -> (#|L| <= W)%N ->
  rt_prime t = p -> rt_exponent t = k -> rt_power t = #|L| -> all (fun x => (x < #|F|)%N) v ->
  exists cs, [/\ convert_coeffs W (Curve p r #|F| v pts) t = Ok cs, size cs = size v,
    all (fun x => (x < #|L|)%N) cs,
    forall i, (i < size v)%N -> elt_of G (nth 0%N cs i) = emb (elt_of g (nth 0%N v i)) &
    poly_of G cs = map_poly emb (poly_of g v)].
Proof.
move=> Hg HG Hp Hr Hq HQ Hrk HW E1 E2 E3 Hv.
have [cs [H1 H2 H3 H4]] := convert_ok Hg HG Hp Hr Hq HQ Hrk HW pts E1 E2 E3 Hv.
exists cs; split=> //; last by rewrite /poly_of H4 (Poly_embed _ _ v).
move=> i Hi; rewrite -(nth_map 0%N 0 (fun x => elt_of G x)) ?H2 // H4 (nth_map 0%N) //.
Qed.

Lemma convert_refuses W c t : c_prime c != rt_prime t \/ (rt_exponent t %% c_exponent c != 0)%N ->
  convert_coeffs W c t = Term.
Proof. by rewrite /convert_coeffs => -[->//|H]; case: eqP => //= _; rewrite H. Qed.

Lemma count_refuses W c t : c_prime c != rt_prime t \/
    (rt_exponent t %% c_exponent c != 0)%N /\ ~~ has_counted c (rt_exponent t) ->
  count W c t = Term.
Proof.
rewrite /count eq_sym => -[->//|[H Hn]]; case: eqP => //= E.
by rewrite (negbTE Hn) convert_refuses //; right.
Qed.
