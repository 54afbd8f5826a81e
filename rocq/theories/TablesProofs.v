(** Proofs about the tables. *)
Set Warnings "-notation-overridden,-ambiguous-paths".
From mathcomp Require Import all_ssreflect ssralg finalg zify.
From Verif Require Import Res ResFacts FinField Tables TablesSpec.

Set Implicit Arguments.
Unset Strict Implicit.
Unset Printing Implicit Defensive.
Import GRing.Theory.
Local Open Scope ring_scope.

Section Fq.
Variable F : finFieldType.
Local Notation q := #|F|.
Implicit Types (g x : F).

Definition powers g n : seq F := [seq g ^+ i | i <- iota 0 n].

Lemma powersS g n : powers g n.+1 = rcons (powers g n) (g ^+ n).
Proof. by rewrite /powers -addn1 iotaD map_cat cats1. Qed.

Lemma head_powers g n : (0 < n)%N -> head 0 (powers g n) = 1.
Proof. by case: n => //= n _; rewrite expr0. Qed.

Lemma fq_inner_true n gen j : (0 < j)%N ->
  (forall i, (j <= i < j + n)%N -> gen ^+ i != 1) ->
  fq_inner n gen (powers gen j) (gen ^+ j) = (true, powers gen (j + n), gen ^+ (j + n)).
Proof.
elim: n j => [|n IH] j Hj H /=; first by rewrite addn0.
rewrite head_powers // (negbTE (H j _)); last by slia.
rewrite -powersS -exprSr IH ?addSnnS // => i Hi; apply: H; slia.
Qed.

Lemma fq_inner_false n gen j i : (0 < j)%N -> (j <= i < j + n)%N -> gen ^+ i = 1 ->
  exists l, fq_inner n gen (powers gen j) (gen ^+ j) = (false, l, 1).
Proof.
elim: n j => [|n IH] j Hj Hi E /=; first by slia.
rewrite head_powers //; case: eqP => [->|Hne]; first by exists (powers gen j).
rewrite -powersS -exprSr; apply: IH => //.
by case: (j =P i) => [Eij|]; [case: Hne; rewrite Eij|slia].
Qed.

Lemma fq_outer_spec cand n i fuel : (n < fuel)%N ->
  (forall k, (k < n)%N -> cand (i + k)%N != 0 /\ ~~ generator (cand (i + k)%N)) ->
  (generator (cand (i + n)%N) || (cand (i + n)%N == 0)) ->
  fq_outer fuel q cand i 1 = Ok (powers (cand (i + n)%N) q.-1).
Proof.
have H1 (x : F) : [:: 1] = powers x 1 by rewrite /powers /= expr0.
elim: fuel n i => [|fuel IH] [|n] i // Hn Hk Hlast.
  rewrite /= mul1r (H1 (cand i)) -[X in fq_inner _ _ _ X]expr1 fq_inner_true //.
    by rewrite addn0 add1n prednK // pred_q_gt0.
  move=> j Hj; move: Hlast; rewrite addn0 => /orP[Hg|/eqP ->].
    by apply: generator_small => //; slia.
  by rewrite expr0n; case: j Hj => // j _ /=; rewrite eq_sym oner_eq0.
rewrite /=; have [] := Hk 0%N isT; rewrite addn0 => Hc0 Hcg.
case E: (has (fun j => cand i ^+ j == 1) (iota 1 (q.-1).-1)).
  have /hasP[j] := E; rewrite mem_iota => Hj /eqP Ej.
  have [l El] := @fq_inner_false (q.-1).-1 (cand i) 1 j isT Hj Ej.
  rewrite mul1r (H1 (cand i)) -[X in fq_inner _ _ _ X]expr1 El /=.
  rewrite (IH n i.+1) //.
  - by rewrite addSnnS.
  - by move=> k Hk'; rewrite addSnnS; apply: Hk.
  by rewrite addSnnS.
case/negP: Hcg; apply: generator_test => // j Hj.
by move/hasPn: (negbT E) => -> //; rewrite mem_iota; slia.
Qed.

(** First candidate that stops the search. *)
Lemma first_gen (cand : nat -> F) n : generator (cand n) ->
  exists2 m, (m <= n)%N & generator (cand m) /\ forall k, (k < m)%N -> ~~ generator (cand k).
Proof.
move=> Hn; have Hex : exists m, generator (cand m) by exists n.
case: (ex_minnP Hex) => m Hm Hmin; exists m; first exact: Hmin.
by split=> // k Hk; apply/negP => /Hmin; slia.
Qed.

Lemma nth_powers g n i : (i < n)%N -> nth 0 (powers g n) i = g ^+ i.
Proof. by move=> Hi; rewrite (nth_map 0%N) ?size_iota // nth_iota. Qed.

Lemma size_powers g n : size (powers g n) = n.
Proof. by rewrite size_map size_iota. Qed.

Lemma powers_uniq g : generator g -> uniq (powers g q.-1).
Proof.
move=> Hg; rewrite map_inj_in_uniq ?iota_uniq // => i j.
rewrite !mem_iota /= !add0n => Hi Hj; exact: genX_inj.
Qed.

Lemma powers0_uniq g : generator g -> uniq (rcons (powers g q.-1) 0).
Proof.
move=> Hg; rewrite rcons_uniq powers_uniq // andbT; apply/mapP => -[i _ /eqP].
by rewrite eq_sym (negbTE (genX_neq0 Hg i)).
Qed.

Lemma mem_powers0 g x : generator g -> x \in rcons (powers g q.-1) 0.
Proof.
move=> Hg; rewrite mem_rcons inE; case: eqP => //= /eqP Hx.
have [i Hi ->] := dlog Hg Hx; apply/mapP; exists i => //; rewrite mem_iota; slia.
Qed.

Lemma fq_table_first (cand : nat -> F) m fuel :
  generator (cand m) -> (forall k, (k < m)%N -> cand k != 0 /\ ~~ generator (cand k)) -> (m < fuel)%N ->
  exists tbl, [/\ fq_elements fuel q cand = Ok tbl, size tbl = q,
    forall e, (e < q)%N -> nth 0 tbl e = elt_of (cand m) e & forall x, count_mem x tbl = 1%N].
Proof.
move=> Hgm Hmin Hf; have Hq := card_gt1 F.
exists (rcons (powers (cand m) q.-1) 0); split=> //.
- by rewrite /fq_elements (@fq_outer_spec _ m 0) ?add0n ?Hgm.
- by rewrite size_rcons size_powers; slia.
- move=> e He; rewrite nth_rcons size_powers /elt_of.
  case: (ltngtP e q.-1) => [H|H|_] //; last by slia.
  by rewrite nth_powers.
move=> x; rewrite count_uniq_mem ?powers0_uniq //.
by rewrite mem_powers0.
Qed.

Lemma fq_table_ok (cand : nat -> F) n fuel :
  generator (cand n) -> (forall k, (k < n)%N -> cand k != 0) -> (n < fuel)%N ->
  exists g tbl, [/\ fq_elements fuel q cand = Ok tbl, generator g, size tbl = q,
    forall e, (e < q)%N -> nth 0 tbl e = elt_of g e & forall x, count_mem x tbl = 1%N].
Proof.
move=> Hn Hz Hf; have [m Hm [Hgm Hmin]] := first_gen Hn.
have [||tbl [H1 H2 H3 H4]] := @fq_table_first cand m fuel Hgm.
- by move=> k Hk; split; [apply: Hz; slia|apply: Hmin].
- by slia.
by exists (cand m), tbl.
Qed.

Lemma fq_table_zero (cand : nat -> F) n fuel : (3 < q)%N ->
  (forall k, (k < n)%N -> cand k != 0 /\ ~~ generator (cand k)) -> cand n = 0 -> (n < fuel)%N ->
  exists tbl, [/\ fq_elements fuel q cand = Ok tbl, size tbl = q,
    count_mem 0 tbl = q.-1 & exists x : F, x \notin tbl].
Proof.
move=> Hq Hk Hn Hf.
have Et : fq_elements fuel q cand = Ok (rcons (powers 0 q.-1) 0).
  by rewrite /fq_elements (@fq_outer_spec _ n 0) ?add0n ?Hn ?eqxx ?orbT.
have Ep : rcons (powers 0 q.-1) 0 = 1 :: nseq q.-1 (0 : F).
  have : (0 < q.-1)%N by slia.
  case: q.-1 => // m _; rewrite /powers [iota _ _]/= [map _ _]/= expr0 rcons_cons.
  congr cons; have -> : m.+1 = size (rcons [seq (0 : F) ^+ i | i <- iota 1 m] 0).
    by rewrite size_rcons size_map size_iota.
  apply/all_pred1P; rewrite all_rcons /= eqxx all_map /=.
  by apply/allP => -[|i]; rewrite mem_iota //= expr0n eqxx.
exists (rcons (powers 0 q.-1) 0); split=> //.
- by rewrite size_rcons size_powers; slia.
- by rewrite Ep /= oner_eq0 add0n count_nseq /= eqxx mul1n.
have [g Hg] := exists_generator F; exists g.
rewrite Ep inE mem_nseq (negbTE (gen_neq0 Hg)) andbF orbF.
rewrite -[X in X == _]expr1 generator_small //; slia.
Qed.

End Fq.

(** The exponent reduction table. *)
Lemma exponent_table_ok q : (0 < q.-1)%N ->
  size (exponent_reduction_table q) = (2 * q.-1)%N /\
  forall i, (i < 2 * q.-1)%N -> vget (exponent_reduction_table q) i = Ok (i %% q.-1)%N.
Proof.
move=> Hq; rewrite /exponent_reduction_table /= cats0.
have Hs : size (iota 0 q.-1 ++ iota 0 q.-1) = (2 * q.-1)%N by rewrite size_cat !size_iota; slia.
split=> // i Hi; rewrite (vgetE 0%N) ?Hs //; congr Ok.
rewrite nth_cat size_iota; case: ltnP => Hlt; first by rewrite nth_iota // modn_small.
rewrite nth_iota ?add0n; last by slia.
have {2}-> : i = (1 * q.-1 + (i - q.-1))%N by slia.
by rewrite modnMDl modn_small //; slia.
Qed.

Section Inc.
Variables (L : finFieldType) (p r : nat) (coeff : L -> nat -> nat).
Hypothesis Hco : coordinates p r coeff.
Local Notation q := #|L|.
Local Notation code := (coeff_sum coeff p r).

Lemma codeE x : code x = (\sum_(i < r) coeff x i * p ^ i)%N.
Proof.
rewrite /coeff_sum; elim: r => [|n IH]; first by rewrite big_ord0.
rewrite -[n.+1]addn1 iotaD rev_cat addn1 big_ord_recr /= -IH add0n.
have Hf l : forall s, foldl (fun s dx => s * p + coeff x dx)%N s l =
   (s * p ^ size l + foldl (fun s dx => s * p + coeff x dx) 0 l)%N.
  elim: l => [|d l IHl] s /=; first by rewrite muln1 addn0.
  by rewrite IHl [in RHS]IHl expnS; slia.
by rewrite Hf size_rev size_iota addnC.
Qed.

Let Hp : (1 < p)%N. Proof. by case: Hco => -[]. Qed.
Let Hr : (0 < r)%N. Proof. by case: Hco => -[]. Qed.
Let Hq : q = (p ^ r)%N. Proof. by case: Hco. Qed.
Let Hcl : forall x i, (coeff x i < p)%N. Proof. by case: Hco. Qed.

(** Base-[p] expansions. *)
Lemma digits_lt (f : nat -> nat) n : (forall i, (f i < p)%N) -> (\sum_(i < n) f i * p ^ i < p ^ n)%N.
Proof.
move=> Hf; elim: n => [|n IH]; first by rewrite big_ord0.
rewrite big_ord_recr /= expnS; have := Hf n.
set s := (\sum_(i < n) _)%N in IH *; set P := (p ^ n)%N in IH *.
by move=> H; nia.
Qed.

Lemma digits_inj (f h : nat -> nat) n : (forall i, (f i < p)%N) -> (forall i, (h i < p)%N) ->
  (\sum_(i < n) f i * p ^ i = \sum_(i < n) h i * p ^ i)%N -> forall i, (i < n)%N -> f i = h i.
Proof.
move=> Hf Hh; elim: n => [|n IH] // E i Hi.
move: E; rewrite !big_ord_recr /= => E.
have Hlf := digits_lt n Hf; have Hlh := digits_lt n Hh.
have Ed : f n = h n.
  have : ((\sum_(i < n) f i * p ^ i + f n * p ^ n) %/ p ^ n =
          (\sum_(i < n) h i * p ^ i + h n * p ^ n) %/ p ^ n)%N by rewrite E.
  by rewrite !divnDMl ?expn_gt0 ?(ltnW Hp) // !divn_small.
case: (i =P n) => [->//|Hne].
apply: IH; last by slia.
by move: E; rewrite Ed => /addIn.
Qed.

Lemma code_lt x : (code x < q)%N.
Proof. by rewrite codeE Hq; apply: digits_lt => i; case: Hco. Qed.

Lemma code_inj : injective code.
Proof.
move=> x y; rewrite !codeE => E; case: (Hco) => _ _ Hlt Hdet _; apply: Hdet.
exact: (digits_inj (Hlt x) (Hlt y) E).
Qed.

Lemma code0 : code 0 = 0%N.
Proof. by rewrite codeE big1 // => i _; case: Hco => _ _ _ _ [-> _ _]. Qed.

Lemma code_eq0 x : (code x == 0%N) = (x == 0).
Proof. by rewrite -(inj_eq code_inj) code0. Qed.

Lemma code_modp x : (code x %% p = coeff x 0)%N.
Proof.
rewrite codeE; case: r Hr => // n _.
rewrite big_ord_recl /= expn0 muln1 -modnDmr.
have /eqP-> : (p %| \sum_(i < n) coeff x (bump 0 i) * p ^ bump 0 i)%N.
  by apply: dvdn_sum => i _; rewrite /bump /= add1n expnS mulnCA dvdn_mulr.
by rewrite addn0 modn_small //; case: Hco.
Qed.

Lemma code_div x : (code (1 + x) %/ p = code x %/ p)%N.
Proof.
rewrite !codeE; case: r Hr => // n _.
rewrite !big_ord_recl /= !expn0 !muln1.
have -> : (\sum_(i < n) coeff (1 + x)%R (bump 0 i) * p ^ bump 0 i =
           \sum_(i < n) coeff x (bump 0 i) * p ^ bump 0 i)%N.
  by apply: eq_bigr => i _; rewrite /bump /= add1n; case: Hco => _ _ _ _ [_ _ ->].
have Hd : (p %| \sum_(i < n) coeff x (bump 0 i) * p ^ bump 0 i)%N.
  by apply: dvdn_sum => i _; rewrite /bump /= add1n expnS mulnCA dvdn_mulr.
by rewrite !divnDr // (divn_small (Hcl (1 + x) 0)) (divn_small (Hcl x 0)).
Qed.

Lemma code_succ x : code (1 + x) =
  (if (code x %% p == p.-1) then code x - p.-1 else (code x).+1)%N.
Proof.
rewrite [LHS](divn_eq _ p) code_modp code_div.
case: (Hco) => _ _ Hlt _ [_ -> _].
have E := divn_eq (code x) p; move: E; rewrite code_modp.
move: (code x %/ p)%N => d E.
have Hc := Hlt x 0%N.
case: eqP => H; first by rewrite H prednK ?modnn ?(ltnW Hp) //; slia.
rewrite modn_small; slia.
Qed.

Lemma code_surj k : (k < q)%N -> exists x, code x = k.
Proof.
move=> Hk; pose f (x : L) : 'I_q := Ordinal (code_lt x).
have Hf : injective f by move=> x y /(congr1 val) /= /code_inj.
have : bijective f by apply: inj_card_bij => //; rewrite card_ord.
by case=> h _ Hh; exists (h (Ordinal Hk)); have /(congr1 val) := Hh (Ordinal Hk).
Qed.

(** The map [gen_powers] built from a generator. *)
Definition gp_inv (g : L) (ix : nat) (gp : smap nat) : Prop :=
  sm_wf gp /\ forall x, sm_find gp (code x) =
    if x == 0 then Some q.-1 else if [pick i : 'I_ix | x == g ^+ i] is Some i then Some (val i) else None.

Lemma pick_none (g : L) n x : (forall i, (i < n)%N -> x != g ^+ i) -> [pick i : 'I_n | x == g ^+ i] = None.
Proof. by move=> H; case: pickP => // i; rewrite (negbTE (H i (ltn_ord i))). Qed.

Lemma pick_some (g : L) n i : (forall i j, (i < n)%N -> (j < n)%N -> g ^+ i = g ^+ j -> i = j) ->
  (i < n)%N -> exists2 j, [pick j : 'I_n | g ^+ i == g ^+ j] = Some j & val j = i.
Proof.
move=> Hinj Hi; case: pickP => [j /eqP E|/(_ (Ordinal Hi))]; last by rewrite eqxx.
by exists j => //; symmetry; apply: Hinj => //; exact: ltn_ord.
Qed.

Lemma gp_inv0 g : gp_inv g 0 [:: (0%N, q.-1)].
Proof.
split=> // x; rewrite /= code_eq0; case: eqP => // _.
by case: pickP => // -[].
Qed.

Lemma gp_invS g ix gp : gp_inv g ix gp -> g != 0 ->
  (forall i j, (i <= ix)%N -> (j <= ix)%N -> g ^+ i = g ^+ j -> i = j) ->
  gp_inv g ix.+1 (sm_set gp (code (g ^+ ix)) ix).
Proof.
move=> [Hw Hf] Hg Hinj; split; first exact: sm_wf_set.
move=> x; rewrite sm_find_set // (inj_eq code_inj) Hf.
case: (x =P g ^+ ix) => [->|Hne].
  rewrite expf_eq0 (negbTE Hg) andbF.
  have [j -> Ej] := @pick_some g ix.+1 ix Hinj (ltnSn ix).
  by rewrite Ej.
case: (x == 0) => //.
case: pickP => [i /eqP E|Hno].
  have Hi : (i < ix.+1)%N by apply: ltnW; exact: ltn_ord.
  have [j Ej Hj] := @pick_some g ix.+1 i Hinj Hi.
  by rewrite E Ej Hj.
rewrite pick_none // => i; rewrite ltnS leq_eqVlt => /orP[/eqP->|Hi].
  by apply/eqP.
by have := Hno (Ordinal Hi) => /= ->.
Qed.

Lemma gp_inner_true n ix g gp : gp_inv g ix gp -> g != 0 ->
  (forall i j, (i < ix + n)%N -> (j < ix + n)%N -> g ^+ i = g ^+ j -> i = j) ->
  exists2 gp', gp_inner coeff n ix p r g gp (g ^+ ix) = (true, gp') & gp_inv g (ix + n) gp'.
Proof.
elim: n ix gp => [|n IH] ix gp Hinv Hg Hinj /=; first by exists gp; rewrite ?addn0.
have -> : sm_find gp (code (g ^+ ix)) = None.
  rewrite (proj2 Hinv) expf_eq0 (negbTE Hg) andbF pick_none // => i Hi.
  apply/eqP => /Hinj; slia.
have Hinv' : gp_inv g ix.+1 (sm_set gp (code (g ^+ ix)) ix).
  by apply: gp_invS => // i j Hi Hj; apply: Hinj; slia.
rewrite -exprSr; have [|gp' E H] := IH ix.+1 _ Hinv' Hg.
  by move=> i j Hi Hj; apply: Hinj; slia.
by exists gp'; rewrite ?addnS ?E // -addSn.
Qed.

Lemma gp_inner_false n ix g gp i : gp_inv g ix gp -> (ix <= i)%N -> (i < ix + n)%N ->
  (0 < i)%N -> g != 0 -> g ^+ i = 1 ->
  (forall a b, (a < i)%N -> (b < i)%N -> g ^+ a = g ^+ b -> a = b) ->
  exists gp', gp_inner coeff n ix p r g gp (g ^+ ix) = (false, gp').
Proof.
elim: n ix gp => [|n IH] ix gp Hinv Hix Hi Hi0 Hg E Hinj /=; first by slia.
move: Hix; rewrite leq_eqVlt => /orP[/eqP Ei|Hlt].
  rewrite (proj2 Hinv) Ei E; case: eqP => _; first by exists gp.
  case: pickP => [j _|]; first by exists gp.
  by move=> /(_ (Ordinal Hi0)); rewrite expr0 eqxx.
have -> : sm_find gp (code (g ^+ ix)) = None.
  rewrite (proj2 Hinv) expf_eq0 (negbTE Hg) andbF pick_none // => j Hj.
  apply/eqP => /Hinj; slia.
rewrite -exprSr; apply: IH => //; last by slia.
by apply: gp_invS => // a b Ha Hb; apply: Hinj; slia.
Qed.

(** A round with candidate [g] is accepted exactly when [g] generates. *)
Lemma gp_round g : generator g ->
  exists2 gp, gp_inner coeff q.-1 0 p r g [:: (0%N, q.-1)] 1 = (true, gp) & gp_inv g q.-1 gp.
Proof.
move=> Hg; rewrite -(expr0 g).
have [|gp E H] := gp_inner_true (n := q.-1) (gp_inv0 g) (gen_neq0 Hg).
  by move=> i j; rewrite add0n; exact: genX_inj.
by exists gp.
Qed.

Lemma gp_round_false g : (2 < q)%N -> ~~ generator g ->
  exists gp, gp_inner coeff q.-1 0 p r g [:: (0%N, q.-1)] 1 = (false, gp).
Proof.
move=> Hq2 Hg; have Hq1 := pred_q_gt0 L.
case: (g =P 0) => [->|/eqP Hg0].
  have -> : q.-1 = (q.-1).-2.+2 by slia.
  rewrite /= code_eq0 oner_eq0 /= mul1r.
  rewrite code0 eqxx.
  by eexists.
have Hex : exists i, (0 < i)%N && (g ^+ i == 1) by exists q.-1; rewrite Hq1 expf_pred ?eqxx.
case: (ex_minnP Hex) => i /andP[Hi0 /eqP E] Hmin.
have Hi : (i < q.-1)%N.
  have Hle : (i <= q.-1)%N by apply: Hmin; rewrite Hq1 expf_pred ?eqxx.
  rewrite ltn_neqAle Hle andbT; apply/eqP => Ei.
  case/negP: Hg; apply: generator_test => // j /andP[Hj0 Hj].
  by apply/negP => Hj1; have := Hmin j; rewrite Hj0 Hj1 => /(_ isT); slia.
rewrite -(expr0 g); apply: (@gp_inner_false _ _ _ _ i) => //.
  exact: gp_inv0.
have Haux a b : (a < i)%N -> (b < i)%N -> (a < b)%N -> g ^+ a <> g ^+ b.
  move=> Ha Hb Hab Eab.
  have : g ^+ (b - a) == 1.
    apply/eqP; apply: (mulIf (expf_neq0 a Hg0)).
    by rewrite -exprD subnK ?mul1r ?Eab // ltnW.
  by move=> H; have := Hmin (b - a)%N; rewrite H subn_gt0 Hab => /(_ isT); slia.
move=> a b Ha Hb Eab; case: (ltngtP a b) => // H; first by case: (Haux a b).
by case: (Haux b a).
Qed.

Lemma gp_outer_spec cand n i fuel : (2 < q)%N -> (n < fuel)%N ->
  (forall k, (k < n)%N -> ~~ generator (cand (i + k)%N)) -> generator (cand (i + n)%N) ->
  exists2 gp, gp_outer coeff fuel p r q cand i = Ok gp & gp_inv (cand (i + n)%N) q.-1 gp.
Proof.
move=> Hq2; elim: fuel n i => [|fuel IH] [|n] i // Hn Hk Hg.
  have [gp E H] := gp_round Hg; exists gp => //.
  by move: E; rewrite addn0 => E; rewrite [LHS]/= E.
have [|gp E] := @gp_round_false (cand i) Hq2; first by rewrite -[i]addn0 Hk.
rewrite [gp_outer _ _ _ _ _ _ _]/= E; have [||gp' E' H] := IH n i.+1 Hn.
- by move=> k Hk'; rewrite addSnnS Hk.
- by rewrite addSnnS.
by exists gp' => //; rewrite -addSnnS.
Qed.

Section Fill.
Variables (g : L) (gp : smap nat).
Hypothesis Hg : generator g.
Hypothesis Hgp : gp_inv g q.-1 gp.

Lemma gp_get_index i : (i < q)%N -> gp_get gp (code (elt_of g i)) = i.
Proof.
move=> Hi; rewrite /gp_get (proj2 Hgp) /elt_of.
case: (i =P q.-1) => [->|Hne]; first by rewrite eqxx.
rewrite (negbTE (genX_neq0 Hg i)).
by have [||j -> ->] := @pick_some g q.-1 i _ _; [exact: genX_inj|slia|].
Qed.

Lemma index_ex x : exists2 i, (i < q)%N & x = elt_of g i.
Proof.
have Hq1 := pred_q_gt0 L; rewrite /elt_of.
case: (x =P 0) => [->|/eqP Hx]; first by exists q.-1; [slia|rewrite eqxx].
have [i Hi ->] := dlog Hg Hx; exists i; first by slia.
by case: eqP => // E; slia.
Qed.

Lemma elt_of_inj i j : (i < q)%N -> (j < q)%N -> elt_of g i = elt_of g j -> i = j.
Proof. by move=> Hi Hj E; rewrite -(gp_get_index Hi) E gp_get_index. Qed.

(** [gp_get gp] is a bijection of codes and indices. *)
Lemma gp_get_lt k : (k < q)%N -> (gp_get gp k < q)%N.
Proof.
move=> Hk; have [x <-] := code_surj Hk; have [i Hi ->] := index_ex x.
by rewrite gp_get_index.
Qed.

Lemma gp_get_elt k : (k < q)%N -> code (elt_of g (gp_get gp k)) = k.
Proof.
move=> Hk; have [x <-] := code_surj Hk; have [i Hi ->] := index_ex x.
by rewrite gp_get_index.
Qed.

Lemma gp_get_inj k l : (k < q)%N -> (l < q)%N -> gp_get gp k = gp_get gp l -> k = l.
Proof. by move=> Hk Hl E; rewrite -(gp_get_elt Hk) E gp_get_elt. Qed.

(** What one write of the loop does. *)
Definition next_code (k : nat) : nat := if (k %% p == p.-1)%N then (k - p.-1)%N else k.+1.

Lemma next_code_lt k : (k < q)%N -> (next_code k < q)%N.
Proof.
by move=> Hk; have [x Ex] := code_surj Hk; have := code_lt (1 + x); rewrite code_succ Ex.
Qed.

Definition wr (inc : seq nat) (k : nat) : res (seq nat) :=
  vat_set inc (gp_get gp k) (gp_get gp (next_code k)).

Lemma inc_roundE inc pix : (p %| pix)%N -> inc_round p gp inc pix = foldM wr inc (iota pix p).
Proof.
move=> Hpix; rewrite /inc_round -[in RHS](prednK (ltnW Hp)) -addn1 iotaD foldM_cat /=.
have -> : foldM (fun inc ix => vat_set inc (gp_get gp ix) (gp_get gp ix.+1)) inc (iota pix p.-1)
        = foldM wr inc (iota pix p.-1).
  have : {in iota pix p.-1, forall k, next_code k = k.+1}.
    move=> k; rewrite mem_iota => Hk; rewrite /next_code; case: eqP => // E.
    case/dvdnP: Hpix Hk => c -> Hk.
    have Ek : k = (c * p + (k - c * p))%N by lia.
    by move: E; rewrite Ek modnMDl modn_small; lia.
  elim: (iota _ _) inc => //= k l IH inc Hl; rewrite /wr Hl ?inE ?eqxx //.
  by case: (vat_set _ _ _) => //= inc'; apply: IH => j Hj; apply: Hl; rewrite inE Hj orbT.
case: (foldM _ _ _) => //= inc'; rewrite /wr /next_code.
case/dvdnP: Hpix => c ->; rewrite modnMDl modn_small ?eqxx ?addnK //; last by lia.
by case: (vat_set _ _ _).
Qed.

Lemma pix_valuesE : pix_values p q = [seq (i * p)%N | i <- iota 0 (q %/ p)].
Proof.
rewrite /pix_values.
have Hdv : (p %| q)%N by rewrite Hq -(prednK Hr) expnS dvdn_mulr.
have Eq := divnK Hdv; have Hq1 := card_gt1 L.
have Hc : (q %/ p <= q)%N by exact: leq_div.
rewrite -[in iota 0 q](subnKC Hc) iotaD map_cat filter_cat.
rewrite (_ : [seq x <- map _ (iota (0 + _) _) | _] = [::]) ?cats0; last first.
  apply/eqP; rewrite -(negbK (_ == _)) -has_filter; apply/hasPn => x.
  by case/mapP => i; rewrite mem_iota => Hi ->; rewrite -leqNgt; simpl in *; nia.
apply/all_filterP/allP => x /mapP[i]; rewrite mem_iota => Hi ->.
by simpl in *; nia.
Qed.

Lemma flatten_iota n : flatten [seq iota (i * p) p | i <- iota 0 n] = iota 0 (n * p).
Proof.
elim: n => [|n IH] //; rewrite -[n.+1]addn1 iotaD map_cat flatten_cat IH /= cats0 add0n.
by rewrite mulnDl mul1n iotaD.
Qed.

Lemma foldM_rounds inc l :
  foldM (inc_round p gp) inc [seq (i * p)%N | i <- l] = foldM wr inc (flatten [seq iota (i * p) p | i <- l]).
Proof.
elim: l inc => //= i l IH inc; rewrite foldM_cat inc_roundE ?dvdn_mull //.
by case: (foldM wr inc _) => //=.
Qed.

Lemma wr_all n inc0 : size inc0 = q -> (n <= q)%N ->
  exists inc, [/\ foldM wr inc0 (iota 0 n) = Ok inc, size inc = q &
    forall k, (k < n)%N -> nth 0%N inc (gp_get gp k) = gp_get gp (next_code k)].
Proof.
move=> H0; elim: n => [|n IH] Hn; first by exists inc0.
have [|inc [E Hs H]] := IH; first by lia.
rewrite -[n.+1]addn1 iotaD foldM_cat E /= /wr /vat_set Hs add0n gp_get_lt //=.
eexists; split; [by []| |].
  by rewrite size_set_nth Hs; apply/maxn_idPr/gp_get_lt.
move=> k Hk; rewrite nth_set_nth /=; case: eqP => [/gp_get_inj E'|Hne].
  by rewrite E' //; lia.
apply: H; move: Hk; rewrite addn1 ltnS leq_eqVlt => /orP[/eqP Ek|//].
by case: Hne; rewrite Ek.
Qed.

End Fill.

Lemma inc_table_first (cand : nat -> L) m fuel : (2 < q)%N ->
  generator (cand m) -> (forall k, (k < m)%N -> ~~ generator (cand k)) -> (m < fuel)%N ->
  exists inc,
    [/\ incrementation_table coeff fuel p r q cand = Ok inc, size inc = q &
        forall i, (i < q)%N -> (nth 0%N inc i < q)%N /\
          elt_of (cand m) (nth 0%N inc i) = 1 + elt_of (cand m) i].
Proof.
move=> Hq2 Hgm Hmin Hmf.
have [gp E Hinv] := @gp_outer_spec cand m 0 fuel Hq2 Hmf Hmin Hgm.
rewrite /incrementation_table E /= {1}/vat_set size_nseq.
have -> : (q.-1 < q)%N by slia.
rewrite /= (pix_valuesE Hgm) (foldM_rounds gp Hgm).
have Hdv : (p %| q)%N by rewrite Hq -(prednK Hr) expnS dvdn_mulr.
rewrite flatten_iota divnK //.
have Hs0 : size (set_nth 0%N (nseq q 0%N) q.-1 0%N) = q.
  by rewrite size_set_nth size_nseq; apply/maxn_idPr; slia.
have [inc [E' Hs H]] := wr_all Hgm Hinv Hs0 (leqnn q).
exists inc; split=> // i Hi.
have Hc := code_lt (elt_of (cand m) i).
have := H _ Hc; rewrite (gp_get_index Hgm Hinv) // => ->.
have Hnc := next_code_lt Hc; split; first exact: (gp_get_lt Hgm Hinv).
apply: code_inj; rewrite (gp_get_elt Hgm Hinv) //.
by rewrite code_succ.
Qed.

Lemma inc_table_ok (cand : nat -> L) n fuel : (2 < q)%N ->
  generator (cand n) -> (n < fuel)%N ->
  exists (g : L) inc,
    [/\ incrementation_table coeff fuel p r q cand = Ok inc, generator g, size inc = q &
        forall i, (i < q)%N -> (nth 0%N inc i < q)%N /\
          elt_of g (nth 0%N inc i) = 1 + elt_of g i].
Proof.
move=> Hq2 Hn Hf; have [m Hm [Hgm Hmin]] := first_gen Hn.
have [|inc [H1 H2 H3]] := @inc_table_first cand m fuel Hq2 Hgm Hmin; first by lia.
by exists (cand m), inc.
Qed.

End Inc.


Lemma coset_representatives_ok (F : finFieldType) (g x : F) (n : nat) :
  generator g -> x != 0 ->
  uniq (power_coset_representatives #|F| n) /\
  exists! i, i \in power_coset_representatives #|F| n /\
             exists2 y, y != 0 & x = y ^+ n * elt_of g i.
Proof.
move=> Hg Hx; split; first exact: iota_uniq.
have Hle : (gcdn n #|F|.-1 <= #|F|.-1)%N by apply: dvdn_leq; rewrite ?dvdn_gcdr ?pred_q_gt0.
have [i [[Hi [y Hy E]] Hu]] := coset_unique n Hg Hx.
exists i; split.
  split; first by rewrite mem_iota.
  by exists y => //; rewrite /elt_of; case: eqP => // Ei; move: Hi; rewrite Ei ltnNge Hle.
move=> j [Hj [z Hz E']]; apply: Hu; split; first by move: Hj; rewrite mem_iota.
exists z => //; move: E'; rewrite /elt_of; case: eqP => // _ E'.
by move: Hx; rewrite E' mulr0 eqxx.
Qed.

Lemma exponent_table_spec q : (1 < q)%N ->
  size (exponent_reduction_table q) = (2 * (q - 1))%N /\
  forall i, (i < 2 * (q - 1))%N -> vget (exponent_reduction_table q) i = Ok (i %% (q - 1))%N.
Proof. by move=> Hq; rewrite subn1; apply: exponent_table_ok; lia. Qed.
