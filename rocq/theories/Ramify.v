(** Correctness of ramification_type. *)
Set Warnings "-notation-overridden,-ambiguous-paths".
From mathcomp Require Import all_ssreflect ssralg ssrint poly polydiv finalg zify.
From Verif Require Import Res ResFacts FinField Tables TablesSpec CurveSpec PolyOrbit Squarefree RamSpec Irred Curve
  PointSpec PointCount CurveProofs PointMath CurveHistory.

Set Implicit Arguments.
Unset Strict Implicit.
Unset Printing Implicit Defensive.

Lemma sumn_split (a b : pred nat) D :
  sumn [seq e <- D | a e] = sumn [seq e <- D | a e && b e] + sumn [seq e <- D | a e && ~~ b e].
Proof. by elim: D => [|e D IH] //=; case: (a e) => //=; case: (b e) => /=; lia. Qed.

Lemma sumn_filter_eq (a b : pred nat) D : (forall e, a e = b e) ->
  sumn [seq e <- D | a e] = sumn [seq e <- D | b e].
Proof. by move=> E; rewrite (eq_filter E). Qed.

Lemma sumn_count x D : sumn [seq e <- D | e == x] = x * count_mem x D.
Proof.
by elim: D => [|e D IH] /=; rewrite ?muln0 // mulnDr; case: eqP => [->|_] /=; rewrite IH ?muln1 ?muln0.
Qed.

Lemma leq_sumn_filter (a : pred nat) D : sumn [seq e <- D | a e] <= sumn D.
Proof. by elim: D => [|e D IH] //=; case: (a e) => /=; lia. Qed.

Lemma filter_nseq (x : nat) (D : seq nat) : [seq e <- D | e == x] = nseq (count_mem x D) x.
Proof. by elim: D => [|e D IH] //=; case: eqP => [->|_] //=; rewrite IH. Qed.

Lemma sort_append fx D :
  sort leq [seq e <- D | e < fx] ++ nseq (count_mem fx D) fx = sort leq [seq e <- D | e < fx.+1].
Proof.
apply: (sorted_eq leq_trans anti_leq).
- elim: (count_mem fx D) => [|n IH]; first by rewrite cats0 sort_sorted //; exact: leq_total.
  rewrite -addn1 nseqD -[nseq 1 fx]/[:: fx] catA cats1.
  have Hall : all (fun e => e <= fx) (sort leq [seq e <- D | e < fx] ++ nseq n fx).
    rewrite all_cat all_sort; apply/andP; split; last by apply/allP => x /nseqP[->].
    by apply/allP => x; rewrite mem_filter => /andP[/ltnW].
  move: IH Hall; case: (_ ++ _) => [|y s] //= IH /andP[Hy Hall].
  by rewrite rcons_path IH /=; have := mem_last y s; rewrite inE => /predU1P[->|/(allP Hall)].
- exact: sort_sorted leq_total _.
- rewrite perm_sym perm_sort perm_sym.
  have H : perm_eq ([seq e <- D | e < fx] ++ [seq e <- D | e == fx]) [seq e <- D | e < fx.+1].
    have /permPl := perm_filterC (fun e => e < fx) [seq e <- D | e < fx.+1].
    rewrite -!filter_predI => H; apply: perm_trans H; apply: perm_cat.
      by rewrite (eq_filter (a2 := fun e => e < fx)) // => e /=; lia.
    by rewrite (eq_filter (a2 := fun e => e == fx)) // => e /=; lia.
  rewrite -filter_nseq; apply: perm_trans H; by rewrite perm_cat2r perm_sort perm_refl.
Qed.

Section Loop.
Variables (W r d T : nat) (D : seq nat) (pts : smap (nat * nat)).
Hypothesis HT : sumn D = T.
Hypothesis HTW : T < W.
Hypothesis Hpts : forall fx np, 0 < fx -> sm_find pts (fx * r) = Some np ->
  np.2 = sumn [seq e <- D | e %| fx].
Hypothesis Hpos : all (fun e => 0 < e) D.

Definition lower_ok fx (lower : seq nat) : Prop :=
  size lower = d /\
  forall gx, 0 < gx < d -> nth 0 lower gx = sumn [seq e <- D | (e %| gx) && (e < fx)].

Lemma new_value fx np lower : 0 < fx < d -> lower_ok fx lower ->
  sm_find pts (fx * r) = Some np ->
  usub W np.2 (nth 0 lower fx) = fx * count_mem fx D.
Proof.
move=> Hfx [_ Hl] Hnp; rewrite (Hpts _ Hnp); last by case/andP: Hfx.
rewrite Hl // (sumn_split (fun e => e %| fx) (fun e => e < fx)) usubE.
- rewrite addKn -sumn_count; apply: sumn_filter_eq => e.
  case: eqP => [->|Hne]; first by rewrite dvdnn ltnn.
  apply/negP => /andP[Hd]; rewrite -leqNgt => Hle.
  by have := dvdn_leq _ Hd; case/andP: Hfx => H0 _ /(_ H0); lia.
- exact: leq_addr.
- by rewrite -sumn_split; apply: leq_ltn_trans (leq_sumn_filter _ D) _; rewrite HT.
Qed.

Lemma lower_step fx lower : 0 < fx < d -> lower_ok fx lower ->
  lower_ok fx.+1 (add_lower W fx (fx * count_mem fx D) lower).
Proof.
move=> Hfx [Hs Hl]; split; first by rewrite size_mkseq.
move=> gx Hgx; rewrite nth_mkseq ?Hs; last by lia.
have E : sumn [seq e <- D | (e %| gx) && (e < fx.+1)] =
         sumn [seq e <- D | (e %| gx) && (e < fx)] + (if fx %| gx then fx * count_mem fx D else 0).
  rewrite (sumn_split (fun e => (e %| gx) && (e < fx.+1)) (fun e => e < fx)); congr (_ + _).
    by apply: sumn_filter_eq => e; rewrite -andbA; congr (_ && _); lia.
  rewrite -sumn_count; case: ifP => Hd.
    apply: sumn_filter_eq => e; case: eqP => [->|Hne]; first by rewrite Hd ltnSn ltnn.
    by rewrite -andbA; apply/negP => /andP[_]; lia.
  rewrite (eq_filter (a2 := pred0)) ?filter_pred0 // => e; rewrite -andbA.
  apply/negP => /andP[Hde H]; have Ee : e = fx by lia.
  by rewrite -Ee Hde in Hd.
rewrite E (Hl _ Hgx) -/(dvdn fx gx); case/andP: Hgx => -> _ /=.
case: ifP => _; last by rewrite addn0.
rewrite /uadd modn_small // -sumn_count.
apply: leq_ltn_trans HTW; rewrite -HT.
have := sumn_split (fun e => true) (fun e => e < fx) D; rewrite /= filter_predT => ->.
apply: leq_add.
  have -> : sumn [seq e <- D | (e %| gx) && (e < fx)] = sumn [seq e <- [seq e <- D | e < fx] | e %| gx].
    by rewrite -filter_predI.
  exact: leq_sumn_filter.
have -> : sumn [seq e <- D | e == fx] = sumn [seq e <- [seq e <- D | ~~ (e < fx)] | e == fx].
  by rewrite -filter_predI; apply: sumn_filter_eq => e /=; lia.
exact: leq_sumn_filter.
Qed.

Lemma round_up fx N : 0 < fx -> (fx * N + fx.-1) %/ fx = N.
Proof. by move=> H; rewrite mulnC divnMDl // divn_small ?addn0 //; lia. Qed.

Lemma ram_loopE n fx lower : 0 < fx -> fx + n <= d -> lower_ok fx lower ->
  exists fx', fx <= fx' <= fx + n /\
    ram_loop W n fx r pts (sort leq [seq e <- D | e < fx], sumn [seq e <- D | e < fx], lower) =
    (sort leq [seq e <- D | e < fx'], sumn [seq e <- D | e < fx'], fx').
Proof.
elim: n fx lower => [|n IH] fx lower Hfx Hn Hl /=.
  by exists fx; rewrite addn0 leqnn.
case E: (sm_find pts (fx * r)) => [np|]; last by exists fx; rewrite leqnn leq_addr.
have Hfd : 0 < fx < d by lia.
rewrite (new_value Hfd Hl E) round_up // sort_append.
have Es : uadd W (sumn [seq e <- D | e < fx]) (fx * count_mem fx D) = sumn [seq e <- D | e < fx.+1].
  rewrite -sumn_count.
  have Es : sumn [seq e <- D | e < fx.+1] = sumn [seq e <- D | e < fx] + sumn [seq e <- D | e == fx].
    rewrite (sumn_split (fun e => e < fx.+1) (fun e => e < fx)); congr (_ + _); apply: sumn_filter_eq => e; lia.
  rewrite Es /uadd modn_small // -Es; apply: leq_ltn_trans HTW; rewrite -HT; exact: leq_sumn_filter.
rewrite Es; have [||fx' [H1 ->]] := IH fx.+1 _ _ _ (lower_step Hfd Hl) => //; first by rewrite addSnnS.
by exists fx'; split=> //; lia.
Qed.

(** The remainder, if it is less than twice [fx], consists of at most one degree. *)
Lemma small_rest fx : 0 < fx -> sumn [seq e <- D | fx <= e] < 2 * fx ->
  let x := sumn [seq e <- D | fx <= e] in
  sort leq D = if x != 0 then rcons (sort leq [seq e <- D | e < fx]) x else sort leq [seq e <- D | e < fx].
Proof.
move=> Hfx Hlt x.
have Hperm : perm_eq D ([seq e <- D | e < fx] ++ [seq e <- D | fx <= e]).
  have /permPl := perm_filterC (fun e => e < fx) D; rewrite perm_sym.
  by rewrite [X in _ ++ X](eq_filter (a2 := fun e => fx <= e)) // => e /=; lia.
have Hall : all (fun e => fx <= e) [seq e <- D | fx <= e] by exact: filter_all.
rewrite /x; move: Hlt Hall Hperm; case: [seq e <- D | fx <= e] => [|y [|z s]] /= Hlt Hall Hperm.
- by rewrite cats0 in Hperm; apply/perm_sortP => //; [exact: leq_total|exact: leq_trans|exact: anti_leq].
- rewrite addn0; have Hy : y != 0 by lia.
  rewrite Hy; apply: (sorted_eq leq_trans anti_leq).
  + exact: sort_sorted leq_total _.
  + have : all (fun e => e <= y) (sort leq [seq e <- D | e < fx]).
      by rewrite all_sort; apply/allP => e; rewrite mem_filter; lia.
    have := sort_sorted leq_total [seq e <- D | e < fx].
    case: (sort _ _) => [|u s] //= Hp /andP[Hu Ha]; rewrite rcons_path Hp /=.
    by have := mem_last u s; rewrite inE => /predU1P[->|/(allP Ha)].
  + rewrite perm_sort; apply: perm_trans Hperm _; by rewrite -cats1 perm_cat2r perm_sym perm_sort perm_refl.
- by lia.
Qed.

End Loop.

Import GRing.Theory.
Local Open Scope ring_scope.

Section Type_.
Variables (F : finFieldType) (g : F) (p r W : nat).
Local Notation rhs c := (poly_of g (c_coeffs c)).

(** The degrees in the specification, before sorting. *)
Let D (f : {poly F}) : seq nat :=
  (if odd (size f).-1 then [:: 1%N] else [::]) ++ [seq (size (P : {poly F})).-1 | P <- prime_divisors f].

Lemma ramification_sort f : ramification f = sort leq (D f).
Proof. by []. Qed.

Lemma sumD (f : {poly F}) : f != 0 -> squarefree f -> sumn (D f) = ((size f).-1 + odd (size f).-1)%N.
Proof.
move=> Hf Hsq; rewrite /D sumn_cat -degrees_sum // addnC; congr (_ + _)%N.
by case: odd.
Qed.

Lemma base_ram (f : {poly F}) k : f != 0 -> squarefree f ->
  (base_counts (#|F| ^ k) f).2 = sumn [seq e <- D f | (e %| k)%N].
Proof.
move=> Hf Hsq; rewrite /base_counts /= roots_sum // /D filter_cat sumn_cat addnC; congr (_ + _)%N.
by case: odd; rewrite //= dvd1n.
Qed.

Lemma ram_type_ok factor c : curve_over g p r W c -> points_ok g p r W c ->
  (2 * size (c_coeffs c) < W)%N -> squarefree (rhs c) -> factorisation (rhs c) (factor (c_coeffs c)) ->
  ramification_type W factor c = ramification (rhs c).
Proof.
move=> Hc [Hwf Hp] HW2 Hsq Hfac.
have Hf := rhs_neq0 Hc; have Hsz := rhs_size Hc.
have [[_ _ _ Hr Hq] [_ Ee _] _ _ /andP[Hs1 Hs2]] := Hc.
have Hd : (0 < degree c)%N by rewrite /degree; slia.
have Hdeg : (size (rhs c)).-1 = degree c by rewrite Hsz.
have Hg := genusE Hd Hs2.
have HT : sumn (D (rhs c)) = (2 * genus W c + 2)%N.
  by rewrite sumD // Hdeg [in LHS]Hg; move: Hg; case: odd => /=; slia.
have HTW : (2 * genus W c + 2 < W)%N.
  by move: Hg; rewrite /degree; case: odd; slia.
have Hpts fx np : (0 < fx)%N -> sm_find (c_points c) (fx * r) = Some np ->
    np.2 = sumn [seq e <- D (rhs c) | (e %| fx)%N].
  move=> Hfx /Hp[_ _ _ ->]; rewrite -base_ram // Hq -expnM mulnC //.
have Hpos : all (fun e => (0 < e)%N) (D (rhs c)).
  rewrite all_cat; apply/andP; split; first by case: odd.
  apply/allP => e /mapP[P]; rewrite mem_prime_divisors // => /and3P[_ /andP[H _] _] ->.
  by case: (size P) H => // -[].
rewrite /ramification_type Ee ramification_sort.
have Hl0 : lower_ok (degree c) (D (rhs c)) 1 (nseq (degree c) 0%N).
  split; first by rewrite size_nseq.
  move=> gx Hgx; rewrite nth_nseq if_same.
  rewrite (eq_in_filter (a2 := pred0)) ?filter_pred0 // => e He.
  by have := allP Hpos _ He; case: e {He} => // e _; rewrite ltnS ltn0 andbF.
have E1 : [seq e <- D (rhs c) | (e < 1)%N] = [::].
  rewrite (eq_in_filter (a2 := pred0)) ?filter_pred0 // => e He.
  by have := allP Hpos _ He; case: e {He}.
have [||fx [Hfx]] := ram_loopE HT HTW Hpts Hpos (n := (degree c).-1) (fx := 1) _ _ Hl0 => //.
  by slia.
rewrite E1 /= => ->.
set rest := usub _ _ _.
have Erest : rest = sumn [seq e <- D (rhs c) | (fx <= e)%N].
  rewrite /rest {1}/uadd {1}/umul.
  rewrite [((2 * genus W c) %% W)%N]modn_small; last by slia.
  rewrite modn_small // -HT.
  have := sumn_split (fun e => true) (fun e => (e < fx)%N) (D (rhs c)); rewrite /= filter_predT => Esum.
  rewrite usubE; last by rewrite HT.
    rewrite Esum addKn; apply: sumn_filter_eq => e; by rewrite -leqNgt.
  by rewrite Esum leq_addr.
have Hfx2 : umul W 2 fx = (2 * fx)%N.
  rewrite /umul modn_small //; move: Hfx HW2; rewrite /degree; slia.
rewrite Hfx2 Erest; case: ltnP => Hlt.
  have [H0 _] := andP Hfx.
  have := small_rest HT HTW Hpos H0 Hlt; move=> /= ->.
  by case: ifP.
have Hpd := factorisation_degrees Hf Hsq Hfac.
apply/perm_sortP => //; [exact: leq_total|exact: leq_trans|exact: anti_leq|].
rewrite /D Hdeg modn2; case: odd => /=; first by rewrite perm_cons.
exact: Hpd.
Qed.

Lemma ram_history factor c calls : curve_over g p r W c -> c_points c = [::] ->
  (2 * size (c_coeffs c) < W)%N -> squarefree (rhs c) -> factorisation (rhs c) (factor (c_coeffs c)) ->
  (forall call, List.In call calls -> valid_call g p r W call) ->
  exists c', [/\ foldM (run_call W) c calls = Ok c',
    ramification_type W factor c' = ramification (rhs c) &
    sumn (ramification (rhs c)) = (2 * genus W c' + 2)%N].
Proof.
move=> Hc Hn HW2 Hsq Hfac Hv; have [c' [E S P Q]] := hist_ok Hc (points_nil _ _ _ _ Hn) Hv.
have Hc' := same_over S Hc; have [_ _ _ Sc] := S.
exists c'; split=> //; first by rewrite -Sc; apply: ram_type_ok => //; rewrite Sc.
have Hf := rhs_neq0 Hc; have Hsz := rhs_size Hc.
have [_ _ _ _ /andP[Hs1 Hs2]] := Hc'.
have Hd : (0 < degree c')%N by rewrite /degree; slia.
have Hg := genusE Hd Hs2.
rewrite ramification_sort (perm_sumn (s2 := D (rhs c))); last by rewrite perm_sort perm_refl.
rewrite sumD // Hsz -Sc -/(degree c') [in LHS]Hg; move: Hg; case: odd => /=; slia.
Qed.
End Type_.
