(** Counting points over a finite field of odd order: squares, square roots, values. *)
Set Warnings "-notation-overridden,-ambiguous-paths".
From mathcomp Require Import all_ssreflect ssralg poly polydiv finalg zify.
From Verif Require Import Res ResFacts FinField Tables TablesSpec TablesProofs Curve PointSpec OrbitCount.

Set Implicit Arguments.
Unset Strict Implicit.
Unset Printing Implicit Defensive.
Import GRing.Theory.
Local Open Scope ring_scope.

(** A non-zero square. *)
Definition sqnz (L : finFieldType) (a : L) : bool := (a != 0) && [exists s, s ^+ 2 == a].

Section Squares.
Variable L : finFieldType.
Local Notation Q := #|L|.
Implicit Types (a x y s : L) (f : {poly L}).
Hypothesis Hodd : odd Q.

Lemma pred_even : Q.-1 = (Q.-1)./2.*2.
Proof. by have := card_gt1 L; slia. Qed.

Lemma two_nz : (2%:R : L) != 0.
Proof.
have [G HG] := exists_generator L; have Hq := card_gt1 L.
have Hh : (0 < (Q.-1)./2 < Q.-1)%N by slia.
apply/negP => /eqP H2; have /negP[] := generator_small HG Hh.
rewrite -subr_eq0 -sqrf_eq0 sqrrB1 -exprM muln2 -pred_even expf_pred ?(gen_neq0 HG) //.
by rewrite -mulr_natr H2 mulr0 subr0 -[1 + 1]/(2%:R) H2.
Qed.

Lemma opp_neq y : y != 0 -> - y != y.
Proof.
move=> Hy; rewrite eq_sym -subr_eq0 opprK -mulr2n -mulr_natl mulf_neq0 //; exact: two_nz.
Qed.

Lemma card_sqrt a : #|[set s : L | s ^+ 2 == a]| = (if a == 0%R then 1 else if sqnz a then 2 else 0)%N.
Proof.
rewrite /sqnz; case: eqP => [->|/eqP Ha] /=.
  by apply/eqP/cards1P; exists 0; apply/setP => s; rewrite !inE sqrf_eq0.
case: existsP => [[s /eqP Es]|Hn].
  have Hs : s != 0 by apply: contraNneq Ha => E; rewrite -Es E expr0n.
  rewrite (_ : [set _ | _] = [set s; - s]); first by rewrite cards2 eq_sym opp_neq.
  by apply/setP => t; rewrite !inE -Es eqf_sqr.
by apply/eqP; rewrite cards_eq0; apply/eqP/setP => s; rewrite !inE; apply/negP => H; apply: Hn; exists s.
Qed.

Lemma affine_points_sum f :
  affine_points f = (2 * #|[set x | sqnz f.[x]%R]| + #|[set x | root f x]|)%N.
Proof.
rewrite /affine_points -sum1_card.
rewrite (eq_bigl (fun xy : L * L => true && (xy.2 ^+ 2 == f.[xy.1]))); last by move=> xy; rewrite inE.
rewrite -(pair_big_dep xpredT (fun x y => y ^+ 2 == f.[x]) (fun _ _ => 1%N)) /=.
rewrite -!sum1_card mulnC big_distrl /= (big_mkcond (fun x => x \in _)) [X in (_ + X)%N]big_mkcond /=.
rewrite -big_split /=; apply: eq_bigr => x _.
rewrite -(eq_bigl _ _ (fun y => in_set (fun s : L => s ^+ 2 == f.[x]) y)) sum1_card card_sqrt.
by rewrite !inE /root /sqnz; case: eqP => //= _; case: existsP.
Qed.

(** Number of unramified points. *)
Definition unramified f : nat :=
  (2 * (#|[set x | sqnz f.[x]%R]| + (~~ odd (size f).-1 && sqnz (lead_coef f) : nat)))%N.

Lemma points_split f : f != 0 -> curve_points f = (unramified f + ramified_points f)%N.
Proof.
move=> Hf; rewrite /curve_points /ramified_points /unramified /infinite_points affine_points_sum card_sqrt.
rewrite lead_coef_eq0 (negbTE Hf); move: #|_| #|_| => a b; by case: odd; case: sqnz => /=; lia.
Qed.

Lemma true_countsE f : f != 0 -> true_counts f = (unramified f, ramified_points f).
Proof. by move=> Hf; rewrite /true_counts points_split // addnK. Qed.

(** Euler's criterion and parity of discrete logarithms. *)
Section Gen.
Variable G : L.
Hypothesis HG : generator G.

Lemma sqnz_genX i : sqnz (G ^+ i) = ~~ odd i.
Proof.
rewrite /sqnz (genX_neq0 HG) /=.
have := dvdn_nth_power 2 i HG; rewrite (_ : gcdn 2 Q.-1 = 2%N) ?dvdn2; last first.
  by apply/gcdn_idPl; rewrite dvdn2 pred_even odd_double.
case=> [H1 H2]; apply/existsP/idP => [[s /eqP E]|H].
  apply: H1; exists s => //; apply/eqP => E0; move: E; rewrite E0 expr0n /= => E.
  by have := genX_neq0 HG i; rewrite -E eqxx.
by have [s _ ->] := H2 H; exists s.
Qed.

Lemma sqnz_elt i : (i < Q)%N -> sqnz (elt_of G i) = (i != Q.-1) && ~~ odd i.
Proof.
move=> Hi; rewrite /elt_of; case: eqP => // _; last exact: sqnz_genX.
by rewrite /sqnz eqxx.
Qed.

Lemma euler a : a != 0 -> (a ^+ (Q.-1)./2 == 1) = sqnz a.
Proof.
move=> Ha; have [i Hi ->] := dlog HG Ha; rewrite sqnz_genX -exprM -(expr0 G) (genX_eq HG) mod0n.
have Hp := pred_even; have Hpos := pred_q_gt0 L.
rewrite -/(dvdn _ _) {1}Hp -muln2 mulnC dvdn_pmul2r ?dvdn2 //; slia.
Qed.
End Gen.

(** Accumulating the counts without overflow. *)
Lemma tally_fold (T : Type) (W : nat) (step : nat * nat -> T -> nat * nat) (val : T -> L) :
  (forall pts (x : T), step pts x = if val x == 0 then (pts.1, uadd W pts.2 1)
                              else if sqnz (val x) then (uadd W pts.1 2, pts.2) else pts) ->
  forall (s : seq T) (a b : nat), (a + 2 * size s < W)%N -> (b + size s < W)%N ->
  foldl step (a, b) s = ((a + 2 * seq.count (fun x : T => sqnz (val x)) s)%N,
                         (b + seq.count (fun x : T => val x == 0%R) s)%N).
Proof.
move=> Hstep; elim=> [|x s IH] a b /= Ha Hb; first by rewrite /= !muln0 !addn0.
rewrite Hstep /= /uadd; case: eqP => [E|E] /=.
  have -> : sqnz (val x) = false by rewrite /sqnz E eqxx.
  rewrite modn_small; last by slia.
  by rewrite IH ?add0n -?addnA //; slia.
case: (sqnz (val x)) => /=.
  rewrite modn_small; last by slia.
  by rewrite IH; [congr pair; slia|slia|slia].
by rewrite IH ?add0n //; slia.
Qed.

End Squares.
