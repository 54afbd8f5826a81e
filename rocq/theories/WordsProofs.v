(** Proofs about Words.v: up to [M] elements the tables are those of Tables.v; beyond, the constructor fails. *)
Set Warnings "-notation-overridden,-ambiguous-paths".
From mathcomp Require Import all_ssreflect ssralg ssrnum ssrint intdiv finalg zify.
From Verif Require Import Res ResFacts FinField Tables TablesSpec TablesProofs Curve Text Config Worker WorkerSpec WorkerProofs FlintExists Words.

Set Implicit Arguments.
Unset Strict Implicit.
Unset Printing Implicit Defensive.

Section W.
Variables (M S : nat).
Hypothesis HM : 0 < M.
Local Notation W := (words M).

Lemma to_int32_small n : n < M -> to_int32 M n = Posz n.
Proof. by move=> H; rewrite /to_int32 modn_small ?H // /words; lia. Qed.

Lemma to_int32_big n : M <= n -> n < W -> to_int32 M n = Negz (W - n).-1.
Proof. by move=> H1 H2; rewrite /to_int32 modn_small // ltnNge H1 /=; move: H2; rewrite /words; lia. Qed.

Lemma to_int32_inj a b : a < W -> b < W -> (to_int32 M a == to_int32 M b) = (a == b).
Proof.
move=> Ha Hb; case: (ltnP a M) => HA; case: (ltnP b M) => HB.
- by rewrite !to_int32_small // eqz_nat.
- by rewrite to_int32_small // to_int32_big //=; lia.
- by rewrite to_int32_big // to_int32_small //=; lia.
by rewrite !to_int32_big //; lia.
Qed.

Lemma read_to_int32 n : n < W -> read_word M (to_int32 M n) = n.
Proof.
move=> Hn; rewrite /read_word /to_unsigned /to_int32 (modn_small Hn).
case: ifP => _; first by rewrite modz_nat /= modn_small.
rewrite (_ : (Posz n - Posz W)%R = (-1 * Posz W + Posz n)%R); last by lia.
by rewrite modzMDl modz_nat /= modn_small.
Qed.

Lemma word_tableE q : q <= words M -> 
  [seq read_word M x | x <- word_exponent_table M q] = exponent_reduction_table q.
Proof.
move=> Hq; rewrite /word_exponent_table /exponent_reduction_table /= !cats0 map_cat -!map_comp.
have -> // : [seq (read_word M \o to_int32 M) i | i <- iota 0 q.-1] = iota 0 q.-1.
rewrite -[RHS]map_id; apply/eq_in_map => i; rewrite mem_iota /= => Hi.
by rewrite read_to_int32 //; lia.
Qed.

Section Inc.
Variables (L : finFieldType) (p r : nat) (coeff : L -> nat -> nat).
Hypothesis Hco : coordinates p r coeff.
Local Notation q := #|L|.
Local Notation code := (coeff_sum coeff p r).
Hypothesis HqW : q < W.

Let Hp : (1 < p)%N. Proof. by case: Hco => -[]. Qed.
Let Hr : (0 < r)%N. Proof. by case: Hco => -[]. Qed.
Let Hq : q = (p ^ r)%N. Proof. by case: Hco. Qed.

Lemma word_code x : word_coeff_sum M coeff p r x = code x.
Proof.
have Hw l s s' : s = s' %% W ->
    foldl (fun s dx => uadd W (umul W s p) (coeff x dx)) s l = foldl (fun s dx => s * p + coeff x dx) s' l %% W.
  elim: l s s' => [|d l IH] s s' E //=; apply: IH.
  by rewrite E /uadd /umul modnMml modnDml.
rewrite /word_coeff_sum (Hw _ _ 0) ?mod0n // modn_small //.
exact: leq_trans (code_lt Hco x) (ltnW HqW).
Qed.

(** The two maps hold the same entries. *)
Definition same (gp : smap nat) (wgp : wmap) : Prop :=
  [/\ sm_wf gp, forall k v, sm_find gp k = Some v -> v < q &
      forall k, k < W -> wm_find wgp (to_int32 M k) = omap (to_int32 M) (sm_find gp k)].

Lemma same_set gp wgp k v : same gp wgp -> k < W -> v < q ->
  same (sm_set gp k v) (wm_set wgp (to_int32 M k) (to_int32 M v)).
Proof.
move=> [H1 H2 H3] Hk Hv; split; first exact: sm_wf_set.
  by move=> k' v'; rewrite sm_find_set //; case: eqP => [_ [<-]|_ /H2].
move=> k' Hk'; rewrite sm_find_set //= to_int32_inj //.
by case: eqP => // _; exact: H3.
Qed.

Lemma same0 : same [:: (0%N, q.-1)] (wm_set [::] (Posz 0) (to_int32 M q.-1)).
Proof.
have H1 := pred_q_gt0 L; split=> //.
  by move=> k v /=; case: eqP => // _ [<-]; slia.
move=> k Hk /=; rewrite -(@to_int32_small 0) // to_int32_inj ?/words //; last by lia.
by case: eqP.
Qed.

Lemma word_innerE n ix g gp wgp a : same gp wgp -> ix + n < q ->
  exists b gp' wgp', [/\ gp_inner coeff n ix p r g gp a = (b, gp'), word_inner M coeff n ix p r g wgp a = (b, wgp') & same gp' wgp'].
Proof.
elim: n ix gp wgp a => [|n IH] ix gp wgp a Hs Hn; first by exists true, gp, wgp.
have Hc : code a < W by apply: leq_trans (code_lt Hco a) (ltnW HqW).
rewrite [word_inner _ _ _ _ _ _ _ _ _]/= [gp_inner _ _ _ _ _ _ _ _]/= word_code.
have [_ _ ->] // := Hs; case: (sm_find gp (code a)) => [v|] /=; first by exists false, gp, wgp.
by apply: IH; [apply: same_set => //; slia|slia].
Qed.

Lemma word_outerE fuel cand i :
  match gp_outer coeff fuel p r q cand i with
  | Ok gp => exists2 wgp, word_outer M coeff fuel p r q cand i = Ok wgp & same gp wgp
  | Undef => word_outer M coeff fuel p r q cand i = Undef
  | Term => word_outer M coeff fuel p r q cand i = Term
  | OutOfFuel => word_outer M coeff fuel p r q cand i = OutOfFuel
  end.
Proof.
have H1 := pred_q_gt0 L.
elim: fuel i => [|fuel IH] i //; rewrite [gp_outer _ _ _ _ _ _ _]/= [word_outer _ _ _ _ _ _ _ _]/=.
have [|b [gp [wgp [-> -> Hs]]]] := @word_innerE q.-1 0 (cand i) _ _ 1%R same0; first by slia.
case: b; last exact: IH.
by exists wgp.
Qed.

Lemma word_getE gp wgp k : same gp wgp -> k < W -> wm_get wgp (to_int32 M k) = to_int32 M (gp_get gp k).
Proof.
move=> [_ _ H] Hk; rewrite /wm_get /gp_get H //; case: (sm_find gp k) => //=.
by rewrite to_int32_small.
Qed.

Lemma gp_get_q gp wgp k : same gp wgp -> gp_get gp k < q.
Proof.
move=> [_ H _]; rewrite /gp_get; case E: (sm_find gp k) => [v|]; first exact: H E.
exact: ltnW (card_gt1 L).
Qed.

Definition mapr (A B : Type) (f : A -> B) (x : res A) : res B := a <- x ;; Ok (f a).
Local Notation conv := (map (to_int32 M)).

Lemma map_set_nth v i n : i < size v -> conv (set_nth 0 v i n) = set_nth (Posz 0) (conv v) i (to_int32 M n).
Proof.
elim: v i => [|x v IH] [|i] //= Hi; rewrite IH //.
Qed.

Lemma word_setE gp wgp inc k l : q <= M -> same gp wgp -> k < W -> l < W ->
  word_at_set (conv inc) (int32_to_size S (wm_get wgp (to_int32 M k))) (wm_get wgp (to_int32 M l)) =
  mapr conv (vat_set inc (gp_get gp k) (gp_get gp l)).
Proof.
move=> HqM Hs Hk Hl; have := gp_get_q k Hs; rewrite !(word_getE Hs) // /word_at_set /vat_set => Hg.
rewrite (@to_int32_small (gp_get gp k)); last by lia.
rewrite /= size_map; case: ifP => //= Hi; by rewrite map_set_nth.
Qed.

Lemma word_roundE gp wgp inc pix : q <= M -> same gp wgp -> pix + p <= q ->
  word_round M S p wgp (conv inc) pix = mapr conv (inc_round p gp inc pix).
Proof.
move=> HqM Hs Hpix; rewrite /word_round /inc_round.
have E l inc0 : (forall k, k \in l -> k.+1 < W) ->
  foldM (fun inc ix => word_at_set inc (int32_to_size S (wm_get wgp (to_int32 M ix))) (wm_get wgp (to_int32 M ix.+1))) (conv inc0) l
  = mapr conv (foldM (fun inc ix => vat_set inc (gp_get gp ix) (gp_get gp ix.+1)) inc0 l).
  elim: l inc0 => [|k l IH] inc0 Hl //=.
  have Hk : k.+1 < W by apply: Hl; rewrite inE eqxx.
  rewrite (word_setE _ HqM Hs) //; last by exact: ltnW.
  case: (vat_set _ _ _) => //= inc1; apply: IH => k' Hk'.
  by apply: Hl; rewrite inE Hk' orbT.
rewrite E; last by move=> k; rewrite mem_iota; lia.
case: (foldM _ inc _) => //= inc1; rewrite (word_setE _ HqM Hs) //; lia.
Qed.

Lemma word_incE fuel cand : q <= M ->
  word_incrementation_table M S coeff fuel p r q cand = mapr conv (incrementation_table coeff fuel p r q cand).
Proof.
move=> HqM; rewrite /word_incrementation_table /incrementation_table.
have := word_outerE fuel cand 0; case: (gp_outer _ _ _ _ _ _ _) => [gp [wgp -> Hs]|->|->|->] //=.
have H1 := pred_q_gt0 L.
have -> : word_at_set (nseq q (Posz 0)) q.-1 (Posz 0) = mapr conv (vat_set (nseq q 0) q.-1 0).
  rewrite /word_at_set /vat_set !size_nseq; have -> : q.-1 < q by slia.
  by rewrite /= map_set_nth ?size_nseq ?map_nseq ?to_int32_small //; slia.
case: (vat_set _ _ _) => //= inc0.
have : forall pix, pix \in pix_values p q -> pix + p <= q.
  move=> pix; rewrite /pix_values mem_filter => /andP[Hlt /mapP[i _ E]].
  have Hdv : p %| q by rewrite Hq -(prednK Hr) expnS dvdn_mulr.
  case/dvdnP: Hdv => d Ed; move: Hlt; rewrite E Ed => Hlt.
  have Hid : i < d by rewrite -(ltn_pmul2r (ltnW Hp)); move: Hlt; lia.
  by rewrite -mulSnr leq_mul2r Hid orbT.
elim: (pix_values p q) inc0 => [|pix l IH] inc0 Hl //=.
rewrite (word_roundE _ HqM Hs); last by apply: Hl; rewrite inE eqxx.
case: (inc_round _ _ _ _) => //= inc1; apply: IH => k Hk.
by apply: Hl; rewrite inE Hk orbT.
Qed.

Lemma word_inc_term fuel cand n : 3 * M <= S -> 2 < q -> M < q -> generator (cand n) -> n < fuel ->
  word_incrementation_table M S coeff fuel p r q cand = Term.
Proof.
move=> HS Hq2 HqM Hn Hf; have [m Hm [Hgm Hmin]] := first_gen Hn.
have [|gp E Hinv] := @gp_outer_spec _ _ _ _ Hco cand m 0 fuel Hq2 _ Hmin Hgm; first by lia.
rewrite /word_incrementation_table; have := word_outerE fuel cand 0; rewrite E => -[wgp -> Hs] /=.
rewrite {1}/word_at_set size_nseq; have -> : q.-1 < q by slia.
rewrite [bind (Ok _) _]/=; set inc0 := set_nth _ _ _ _.
have Hs0 : size inc0 = q by rewrite size_set_nth size_nseq; apply/maxn_idPr; slia.
have [l ->] : exists l, pix_values p q = 0 :: l.
  have [k Ek] : exists k, q = k.+3 by exists (q - 3); slia.
  by rewrite /pix_values Ek /= mul0n; eexists.
rewrite /= /word_round; have -> : p.-1 = p.-2.+1 by lia.
rewrite [iota _ _]/= [foldM _ _ _]/=.
have H0 : gp_get gp 0 = q.-1.
  by have := proj2 Hinv 0%R; rewrite (code0 Hco) eqxx /gp_get => ->.
rewrite (word_getE Hs); last by rewrite /words; lia.
rewrite H0 to_int32_big /=; [|slia|slia].
have H2 : q < M + M by [].
by rewrite {1}/word_at_set Hs0 ifN // /words; slia.
Qed.
End Inc.

Lemma word_tables_ok (L : finFieldType) p r (coeff : L -> nat -> nat) (cand : nat -> L) n fuel :
  coordinates p r coeff -> 2 < p ^ r -> p ^ r <= M -> generator (cand n) -> n < fuel ->
  exists red inc, [/\ word_tables M S coeff fuel p r cand = Ok (p ^ r, red, inc),
    [seq read_word M x | x <- red] = exponent_reduction_table (p ^ r) &
    incrementation_table coeff fuel p r (p ^ r) cand = Ok [seq read_word M x | x <- inc]].
Proof.
move=> Hco Hq2 HqM Hn Hf; have Hq : #|L| = p ^ r by case: Hco.
have HqW : #|L| < W by rewrite Hq /words; lia.
rewrite /word_tables /pow_word -Hq HqW /= word_incE //; last by rewrite Hq.
have [|g [inc [E _ Hs Hi]]] := inc_table_ok Hco _ Hn Hf; first by rewrite Hq.
exists (word_exponent_table M #|L|), (map (to_int32 M) inc); rewrite E; split=> //.
  by rewrite word_tableE // ltnW.
congr Ok; rewrite -map_comp -[LHS]map_id; apply/eq_in_map => x /(nthP 0)[i Hix <-] /=.
have Hi' : i < #|L| by rewrite -Hs.
by rewrite read_to_int32 // (ltn_trans (proj1 (Hi i Hi'))).
Qed.

Lemma word_tables_term (L : finFieldType) p r (coeff : L -> nat -> nat) (cand : nat -> L) n fuel :
  coordinates p r coeff -> 2 < p ^ r -> 3 * M <= S -> M < p ^ r -> p ^ r < W -> generator (cand n) -> n < fuel ->
  word_tables M S coeff fuel p r cand = Term.
Proof.
move=> Hco Hq2 HS HqM HqW Hn Hf; have Hq : #|L| = p ^ r by case: Hco.
rewrite /word_tables /pow_word HqW /= -Hq (word_inc_term Hco _ HS _ _ Hn Hf) // Hq //.
Qed.

Section Config.
Variables (flint : nat -> nat -> flint_field) (c : config).
Let p := g_prime c.
Let r := g_exponent c.
Let n := g_count c.
Hypothesis Hp : prime p && odd p.
Hypothesis Hr : 0 < r.
Hypothesis Hn : 0 < n.
Hypothesis HS : 3 * M <= S.
Hypothesis Hnr : n * r < W.
Hypothesis Hff : flint_fields flint c.

Let Hp2 : 2 < p.
Proof. by move: Hp => /andP[/prime_gt1]; case: (p) => [|[|[|]]]. Qed.

Lemma pow_gt2 k : 0 < k -> 2 < p ^ k.
Proof. by move=> Hk; apply: leq_trans Hp2 _; rewrite -{1}(expn1 p) leq_pexp2l //; lia. Qed.

Lemma field_j j : 0 < j <= n -> coordinates p (j * r) (@ff_coeff (flint p (j * r))) /\
  generator (@ff_cand (flint p (j * r)) 0).
Proof. by move=> Hj; have [_ [_ H]] := Hff; have [H1 [emb [H2 _]]] := H j Hj. Qed.

Lemma word_redtableE j fuel : 0 < j <= n -> 0 < fuel -> p ^ (j * r) <= M ->
  word_redtable M S flint fuel p (j * r) = mk_redtable flint fuel p (j * r).
Proof.
move=> Hj Hf HqM; have [H1 H2] := field_j Hj.
have [|red [inc [E1 E2 E3]]] := word_tables_ok H1 _ HqM H2 Hf; first by apply: pow_gt2; rewrite muln_gt0 Hr andbT; lia.
by rewrite /word_redtable E1 /= E2 /mk_redtable E3.
Qed.

Lemma exponentsE fuel : n < fuel ->
  config_exponents W S fuel c = Ok [seq j * r | j <- rev (iota 1 n)].
Proof.
move=> Hf; rewrite /config_exponents /umul modn_small //; apply: table_exponents_ok => //; last exact: ltnW.
by apply: leq_trans Hnr _; move: HS; rewrite /words; lia.
Qed.

Lemma word_threads_ok fuel : n < fuel -> p ^ (n * r) <= M ->
  word_thread_tables M S flint fuel c = thread_redtables W S flint fuel c /\
  exists ts, thread_redtables W S flint fuel c = Ok ts.
Proof.
move=> Hf HqM; rewrite /word_thread_tables /thread_redtables exponentsE //= -/p.
have : forall j, j \in rev (iota 1 n) -> 0 < j <= n by move=> j; rewrite mem_rev mem_iota; lia.
elim: (rev _) => [|j l IH] Hl; first by split; last by exists [::].
have Hj : 0 < j <= n by apply: Hl; rewrite inE eqxx.
have [|IH1 [ts IH2]] := IH; first by move=> k Hk; apply: Hl; rewrite inE Hk orbT.
have Hf0 : 0 < fuel by lia.
have HqMj : p ^ (j * r) <= M.
  by apply: leq_trans HqM; rewrite leq_pexp2l; [|lia|rewrite leq_mul2r; lia].
rewrite [mapM _ _]/= [in RHS]/= word_redtableE // IH1 IH2; split=> //.
have [H1 H2] := field_j Hj.
have [|red [inc [E1 E2 E3]]] := word_tables_ok H1 _ HqMj H2 Hf0; first by apply: pow_gt2; rewrite muln_gt0 Hr andbT; lia.
by rewrite /= /mk_redtable E3 /= IH2 /=; eexists.
Qed.

Lemma exponents_first : exists l, [seq j * r | j <- rev (iota 1 n)] = n * r :: l.
Proof.
have -> : rev (iota 1 n) = n :: rev (iota 1 n.-1).
  by rewrite -{1}(prednK Hn) -[n.-1.+1]addn1 iotaD rev_cat /= add1n prednK.
by eexists.
Qed.

Lemma word_threads_term fuel : n < fuel -> M < p ^ (n * r) -> p ^ (n * r) < W ->
  word_thread_tables M S flint fuel c = Term.
Proof.
move=> Hf HqM HqW; rewrite /word_thread_tables exponentsE //= -/p; have [l ->] := exponents_first.
have [|H1 H2] := @field_j n; first by rewrite Hn leqnn.
have H0 : 0 < fuel by lia.
rewrite /= /word_redtable (word_tables_term H1 _ HS HqM HqW H2 H0) //.
by apply: pow_gt2; rewrite muln_gt0 Hr Hn.
Qed.

Lemma word_threads_undef fuel : n < fuel -> W <= p ^ (n * r) ->
  word_thread_tables M S flint fuel c = Undef.
Proof.
move=> Hf HqW; rewrite /word_thread_tables exponentsE //= -/p; have [l ->] := exponents_first.
by rewrite /= /word_redtable /word_tables /pow_word ltnNge HqW.
Qed.
End Config.
End W.

(** ** Statements *)
Lemma word_blocks (M q : nat) : (0 < M)%N -> (q < 2 * M)%N ->
  word_block_non_zero M q = (0, q - 1)%N /\ word_block_complete M q = (0, q)%N.
Proof.
move=> HM Hq; have EW : words M = (2 * M)%N by rewrite /words; lia.
by rewrite /word_block_non_zero /word_block_complete !read_to_int32 ?EW ?subn1 //; lia.
Qed.

Lemma word_tables_spec (M S : nat) (L : finFieldType) (p r : nat) (coeff : L -> nat -> nat) :
  (0 < M)%N -> (3 * M <= S)%N -> coordinates p r coeff -> forall (cand : nat -> L) (n fuel : nat),
  (2 < #|L|)%N -> generator (cand n) -> (n < fuel)%N ->
  [/\ (#|L| <= M)%N -> exists (g : L) red inc,
        [/\ word_tables M S coeff fuel p r cand = Ok (#|L|, red, inc), generator g,
            size red = (2 * (#|L| - 1))%N /\ (forall i, (i < 2 * (#|L| - 1))%N -> nth 0%R red i = Posz (i %% (#|L| - 1))),
            size inc = #|L| &
            forall i, (i < #|L|)%N -> exists2 k, (k < #|L|)%N /\ nth 0%R inc i = Posz k &
              elt_of g k = (1 + elt_of g i)%R],
      (M < #|L|)%N -> (#|L| < 2 * M)%N -> word_tables M S coeff fuel p r cand = Term &
      (2 * M <= #|L|)%N -> word_tables M S coeff fuel p r cand = Undef].
Proof.
move=> HM HS Hco cand n fuel Hq2 Hn Hf; have Hq : #|L| = (p ^ r)%N by case: Hco.
have EW : words M = (2 * M)%N by rewrite /words; lia.
have Hq1 : (2 < p ^ r)%N by rewrite -Hq.
split.
- move=> HqM; have HqW : (#|L| < words M)%N by rewrite EW; lia.
  have [g [inc [E Hg Hs Hi]]] := inc_table_ok Hco Hq2 Hn Hf.
  exists g, (word_exponent_table M #|L|), (map (to_int32 M) inc); split=> //.
  + by rewrite /word_tables /pow_word -Hq HqW /= (word_incE S HM Hco) // E.
  + have [|H1 H2] := @exponent_table_spec #|L|; first by lia.
    have ER : word_exponent_table M #|L| = map (to_int32 M) (exponent_reduction_table #|L|).
      by rewrite /word_exponent_table /exponent_reduction_table /= !cats0 map_cat.
    rewrite ER size_map H1; split=> // i Hi'; have := H2 i Hi'.
    move=> /(vget_Ok 0%N)[Hsz Enth]; rewrite (nth_map 0%N) // Enth to_int32_small //.
    by apply: (@leq_trans (#|L| - 1)); [rewrite ltn_mod; lia|lia].
  + by rewrite size_map.
  move=> i Hi'; have [H1 H2] := Hi i Hi'; exists (nth 0%N inc i) => //; split=> //.
  by rewrite (nth_map 0%N) ?Hs // to_int32_small //; lia.
- by move=> H1 H2; apply: (word_tables_term HM Hco _ HS _ _ Hn Hf) => //; rewrite -Hq // EW.
by move=> H; rewrite /word_tables /pow_word -Hq ltnNge EW H.
Qed.

Lemma word_threads_spec (M S : nat) (flint : nat -> nat -> flint_field) (c : config) (fuel : nat) :
  (0 < M)%N -> (3 * M <= S)%N -> prime (g_prime c) && odd (g_prime c) -> verify true c ->
  (g_count c * g_exponent c < 2 * M)%N -> flint_fields flint c -> (g_count c < fuel)%N ->
  let Q := ((g_prime c ^ g_exponent c) ^ g_count c)%N in
  [/\ (Q <= M)%N -> exists ts, word_thread_tables M S flint fuel c = Ok ts /\ thread_redtables (2 * M) S flint fuel c = Ok ts,
      (M < Q < 2 * M)%N -> word_thread_tables M S flint fuel c = Term &
      (2 * M <= Q)%N -> word_thread_tables M S flint fuel c = Undef].
Proof.
move=> HM HS Hp /and5P[_ Hr _ Hn _] Hnr Hff Hf Q.
have EW : (2 * M)%N = words M by rewrite mul2n -addnn.
have EQ : Q = (g_prime c ^ (g_count c * g_exponent c))%N by rewrite /Q -expnM mulnC.
rewrite -lt0n in Hr; rewrite -lt0n in Hn; rewrite EQ EW in Hnr *; split.
- by move=> H; have [E [ts Ets]] := word_threads_ok HM Hp Hr Hn HS Hnr Hff Hf H; exists ts; rewrite E.
- by move=> /andP[]; exact: (word_threads_term HM Hp Hr Hn HS Hnr Hff Hf).
by move=> H; exact: (word_threads_undef HM flint Hp Hr Hn HS Hnr Hf H).
Qed.

Lemma expn_split a b c m : (c = a + b)%N -> (m ^ c = m ^ a * m ^ b)%N.
Proof. by move=> ->; exact: expnD. Qed.
Lemma expn_prod a b c m : (c = a * b)%N -> (m ^ c = (m ^ a) ^ b)%N.
Proof. by move=> ->; exact: expnM. Qed.
Lemma pow_19_12 : (2 ^ 19 < 3 ^ 12)%N.
Proof. by vm_compute. Qed.
Lemma pow_12_8 : (2 ^ 12 < 3 ^ 8)%N.
Proof. by vm_compute. Qed.
Lemma pow4_mono a b : (a < b)%N -> (a ^ 4 < b ^ 4)%N.
Proof. by move=> H; rewrite ltn_exp2r. Qed.
Lemma pow_5_8 : (3 ^ 5 < 2 ^ 8)%N.
Proof. by vm_compute. Qed.
Lemma pow3_20 : (2 ^ 31 < 3 ^ 20 < 2 ^ 32)%N.
Proof.
apply/andP; split.
  rewrite (@expn_split 19 12 31 2 erefl) (@expn_split 12 8 20 3 erefl); exact: (ltn_mul pow_19_12 pow_12_8).
rewrite (@expn_prod 5 4 20 3 erefl) (@expn_prod 8 4 32 2 erefl); exact: (pow4_mono pow_5_8).
Qed.
Lemma pow3_21 : (2 ^ 32 <= 3 ^ 21)%N.
Proof.
have /andP[H _] := pow3_20. rewrite (expnS 3 20) (expnS 2 31); exact: (leq_mul (isT : (2 <= 3)%N) (ltnW H)).
Qed.

Lemma pow2_gt0 k : (0 < 2 ^ k)%N.
Proof. by rewrite expn_gt0. Qed.
Lemma word_bits : (32 < 2 ^ 31)%N.
Proof.
rewrite (@expn_split 6 25 31 2 erefl).
exact: leq_trans (isT : (33 <= 2 ^ 6)%N) (leq_pmulr _ (pow2_gt0 25)).
Qed.
Lemma word_double : (2 * 2 ^ 31 = 2 ^ 32)%N.
Proof. exact: (esym (expnS 2 31)). Qed.
Lemma size_bits : (3 * 2 ^ 31 <= 2 ^ 64)%N.
Proof.
rewrite (@expn_split 33 31 64 2 erefl).
have H : (3 <= 2 ^ 33)%N.
  by rewrite (@expn_split 2 31 33 2 erefl); exact: leq_trans (isT : (3 <= 2 ^ 2)%N) (leq_pmulr _ (pow2_gt0 31)).
exact: (leq_mul H (leqnn _)).
Qed.

Section Refuted.
Variables (M S p n : nat) (path : seq char).
Hypothesis HM : (32 < M)%N.
Hypothesis HS : (3 * M <= S)%N.
Hypothesis Hp : prime p && odd p.
Hypothesis Hn : (0 < n < 32)%N.
Let c k := Config p 1 2 false k path 1.

Lemma verify_c k : (0 < k)%N -> verify true (c k).
Proof. by move=> Hk; rewrite /verify /= -!lt0n Hk andbT prime_gt0 //; case/andP: Hp. Qed.

Lemma flint_c : exists flint, flint_fields flint (c n.+1) /\ flint_fields flint (c n).
Proof.
have [||flint Hff] := @flint_exists (c n.+1); [by case/andP: Hp|by []|exists flint; split=> //].
case: Hff => H1 [H2 H3]; split; [exact: H1|split; [exact: H2|]].
by move=> j /andP[Hj1 Hj2]; apply: H3; rewrite Hj1 /= ltnW.
Qed.

Lemma count_c k : (k < 34)%N -> (g_count (c k) * g_exponent (c k) < 2 * M)%N.
Proof. by move=> Hk; rewrite /= muln1; lia. Qed.

Lemma term_c flint fuel : (n < fuel)%N -> (M < p ^ n < 2 * M)%N -> flint_fields flint (c n) ->
  word_thread_tables M S flint fuel (c n) = Term.
Proof.
move=> Hf HQ Hff; have HM0 : (0 < M)%N by apply: leq_trans HM.
have Hn0 : (0 < n)%N by case/andP: Hn.
have Hn1 : (n < 34)%N by lia.
have [_ H _] := @word_threads_spec M S flint (c n) fuel HM0 HS Hp (verify_c Hn0) (count_c Hn1) Hff Hf.
by apply: H; rewrite /= expn1.
Qed.

Lemma undef_c flint fuel : (n.+1 < fuel)%N -> (2 * M <= p ^ n.+1)%N -> flint_fields flint (c n.+1) ->
  word_thread_tables M S flint fuel (c n.+1) = Undef.
Proof.
move=> Hf HQ Hff; have HM0 : (0 < M)%N by apply: leq_trans HM.
have Hn1 : (n.+1 < 34)%N by lia.
have [_ _ H] := @word_threads_spec M S flint (c n.+1) fuel HM0 HS Hp (verify_c (ltn0Sn n)) (count_c Hn1) Hff Hf.
by apply: H; rewrite [g_prime _]/= [g_exponent _]/= [g_count _]/= expn1.
Qed.
End Refuted.

Lemma word_config_refuted : exists c1 c2 : config,
  [/\ verify true c1 /\ verify true c2, prime (g_prime c1) /\ prime (g_prime c2),
      exists flint, flint_fields flint c1 /\ flint_fields flint c2 &
      forall flint fuel, (21 < fuel)%N ->
        (flint_fields flint c1 -> word_thread_tables (2 ^ 31) (2 ^ 64) flint fuel c1 = Term) /\
        (flint_fields flint c2 -> word_thread_tables (2 ^ 31) (2 ^ 64) flint fuel c2 = Undef)].
Proof.
exists (Config 3 1 2 false 20 [::] 1), (Config 3 1 2 false 21 [::] 1).
have Hp : prime 3 && odd 3 by [].
split; [by []|by []|by have [flint [H1 H2]] := @flint_c 3 20 [::] Hp; exists flint|].
move=> flint fuel Hf; split=> Hff.
  apply: (@term_c (2 ^ 31) (2 ^ 64) 3 20 [::] word_bits size_bits Hp isT flint fuel (ltnW Hf) _ Hff).
  rewrite word_double; exact: pow3_20.
apply: (@undef_c (2 ^ 31) (2 ^ 64) 3 20 [::] word_bits size_bits Hp isT flint fuel Hf _ Hff).
rewrite word_double; exact: pow3_21.
Qed.
