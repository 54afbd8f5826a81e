(** Facts about finite fields used by the proofs: generators, discrete logarithms, power
    classes.  No model of code. *)
Set Warnings "-notation-overridden,-ambiguous-paths".
From mathcomp Require Import all_ssreflect ssralg finalg poly cyclic finfield zify.

Set Implicit Arguments.
Unset Strict Implicit.
Unset Printing Implicit Defensive.
Import GRing.Theory.
Local Open Scope ring_scope.

(** [simpl] rewrites the carrier inside [#|F|]; normalise before calling [lia]. *)
Ltac slia := simpl in *; lia.

(** [g] generates the multiplicative group of [F]. *)
Definition generator (F : finFieldType) (g : F) : bool := (#|F|.-1).-primitive_root g.

Section Facts.
Variable F : finFieldType.
Implicit Types g x y : F.
Local Notation q := #|F|.

Lemma card_gt1 : (1 < q)%N.
Proof. by exact: (finRing_gt1 F). Qed.

Lemma pred_q_gt0 : (0 < q.-1)%N.
Proof. by have := card_gt1; lia. Qed.

Lemma expf_pred x : x != 0 -> x ^+ q.-1 = 1.
Proof.
move=> Hx; apply: (mulfI Hx); rewrite mulr1 -exprS prednK ?expf_card //.
by have := card_gt1; lia.
Qed.

Lemma exists_generator : exists g : F, generator g.
Proof.
have := @has_prim_root F q.-1 (filter (fun x => x != 0) (enum F)) pred_q_gt0 _ _ _.
case/(_ _ _ _)/hasP.
- by apply/allP=> x; rewrite mem_filter => /andP[Hx _]; apply/unity_rootP; apply: expf_pred.
- by rewrite filter_uniq ?enum_uniq.
- have -> : size [seq x <- enum F | x != 0] = (size (rem (0:F) (enum F))).
    by rewrite rem_filter ?enum_uniq.
  by rewrite size_rem ?mem_enum // -cardE.
by move=> g _ Hg; exists g.
Qed.

Section Gen.
Variable g : F.
Hypothesis Hg : generator g.

Lemma gen_neq0 : g != 0.
Proof.
apply/negP => /eqP E; have := prim_expr_order Hg; rewrite E expr0n.
have := pred_q_gt0; case: (q.-1) => // n _ /= /eqP.
by rewrite eq_sym oner_eq0.
Qed.

Lemma genX_neq0 i : g ^+ i != 0.
Proof. by rewrite expf_neq0 // gen_neq0. Qed.

Lemma dlog x : x != 0 -> exists2 i, (i < q.-1)%N & x = g ^+ i.
Proof.
by move=> Hx; have [i Hi] := prim_rootP Hg (expf_pred Hx); exists i.
Qed.

Lemma genX_eq i j : (g ^+ i == g ^+ j) = (i == j %[mod q.-1])%N.
Proof. exact: eq_prim_root_expr. Qed.

Lemma genX_inj i j : (i < q.-1)%N -> (j < q.-1)%N -> g ^+ i = g ^+ j -> i = j.
Proof. by move=> Hi Hj /eqP; rewrite genX_eq !modn_small // => /eqP. Qed.

Lemma genX_mod i : g ^+ (i %% q.-1) = g ^+ i.
Proof. exact: prim_expr_mod. Qed.

End Gen.

(** An element none of whose smaller powers is one generates. *)
Lemma generator_test g : g != 0 ->
  (forall i, (0 < i < q.-1)%N -> g ^+ i != 1) -> generator g.
Proof.
move=> Hg Hi; rewrite /generator /primitive_root_of_unity pred_q_gt0 /=.
apply/forallP => i; apply/eqP; rewrite unity_rootE.
case: (ltngtP i.+1 q.-1) => [H|H|->]; last by rewrite expf_pred ?eqxx.
  by apply/negbTE/Hi; lia.
by move: H; rewrite ltnNge (ltn_ord i).
Qed.

Lemma generator_small g i : generator g -> (0 < i < q.-1)%N -> g ^+ i != 1.
Proof.
move=> Hg /andP[H0 H1]; rewrite -(expr0 g) genX_eq // mod0n modn_small //; lia.
Qed.

(** Every [n]-th power class contains exactly one of the first [gcd n (q-1)] powers. *)
Lemma dvdn_nth_power g n i : generator g ->
  (exists2 y, y != 0 & g ^+ i = y ^+ n) <-> (gcdn n q.-1 %| i)%N.
Proof.
move=> Hg; split.
  move=> [y Hy]; have [j _ ->] := dlog Hg Hy; rewrite -exprM => /eqP.
  rewrite genX_eq // => /eqP E.
  rewrite /dvdn -(@modn_dvdm q.-1) ?dvdn_gcdr // E modn_dvdm ?dvdn_gcdr //.
  by rewrite -/(dvdn _ _) dvdn_mull // dvdn_gcdl.
case/dvdnP => k ->.
have [[|u] _] := Bezoutr n pred_q_gt0.
  by rewrite mul0n addn0 => /dvdnP[c Hc]; exists (g ^+ 0); rewrite ?expr0 ?oner_neq0 // expr1n;
     apply/eqP; rewrite -(expr0 g) genX_eq // mod0n Hc mulnA modnMl.
case/dvdnP => c Hc.
(* gcd + u.+1 * n = c * (q-1) *)
exists ((g ^- (u.+1 * k))%R); first by rewrite invr_neq0 // genX_neq0.
rewrite exprVn -exprM; apply: (mulfI (genX_neq0 Hg (u.+1 * k * n))).
rewrite divff ?genX_neq0 // -exprD; apply/eqP; rewrite -(expr0 g) genX_eq // mod0n.
have -> : (u.+1 * k * n + k * gcdn n q.-1)%N = (k * c * q.-1)%N.
  by rewrite -(mulnA k) -Hc; lia.
by rewrite modnMl.
Qed.

Lemma coset_unique g n x : generator g -> x != 0 ->
  exists! i, (i < gcdn n q.-1)%N /\ exists2 y, y != 0 & x = y ^+ n * g ^+ i.
Proof.
move=> Hg Hx; have [j Hj ->] := dlog Hg Hx.
set d := gcdn n q.-1.
have Hd : (0 < d)%N by rewrite gcdn_gt0 pred_q_gt0 orbT.
exists (j %% d)%N; split.
  split; first by rewrite ltn_mod.
  have [y Hy Ey] : exists2 y, y != 0 & g ^+ (j %/ d * d) = y ^+ n.
    by apply/dvdn_nth_power => //; rewrite -/d dvdn_mull.
  by exists y => //; rewrite -Ey -exprD -divn_eq.
move=> i [Hi [y Hy]]; have [k _ ->] := dlog Hg Hy.
rewrite -exprM -exprD => /eqP; rewrite genX_eq // => /eqP E.
rewrite -[RHS](modn_small Hi) -(@modn_dvdm q.-1 j d) ?dvdn_gcdr // E modn_dvdm ?dvdn_gcdr //.
by rewrite -modnDml (eqP (_ : d %| k * n)%N) ?add0n // dvdn_mull // dvdn_gcdl.
Qed.

End Facts.
