(** What one thread computes for a block, and for all blocks of a configuration together. *)
Set Warnings "-notation-overridden,-ambiguous-paths".
From mathcomp Require Import all_ssreflect ssralg ssrnum ssrint poly polydiv finalg finfield zify.
From Verif Require Import Res ResFacts FinField Tables TablesSpec TablesProofs BlockIter CurveIter NormalForm EnumProofs
  CurveSpec PolyOrbit Squarefree EnumTheorems Curve PointSpec PointCount CurveProofs PointMath CurveHistory CurveTheorems RamSpec
  OMap Store TwistProofs StoreSpec StoreProofs FilesProofs Text TextSpec Config KeyMath Worker WorkerSpec.

Set Implicit Arguments.
Unset Strict Implicit.
Unset Printing Implicit Defensive.
Import GRing.Theory.
Local Open Scope ring_scope.

(** ** Exponents of the tables *)
Lemma table_exponents_ok S r m fuel : (0 < r)%N -> (m * r < S)%N -> (m <= fuel)%N ->
  table_exponents S fuel (m * r) r = Ok [seq (j * r)%N | j <- rev (iota 1 m)].
Proof.
move=> Hr; elim: m fuel => [|m IH] fuel HS Hf; first by rewrite mul0n; case: fuel {Hf}.
case: fuel Hf => // fuel Hf; rewrite /table_exponents -/table_exponents.
have -> : (m.+1 * r == 0)%N = false by rewrite muln_eq0; lia.
have -> : usub S (m.+1 * r) r = (m * r)%N.
  have Er : (r %% S = r)%N by apply: modn_small; nia.
  rewrite /usub Er.
  have -> : (m.+1 * r + (S - r) = S + m * r)%N by nia.
  by rewrite modnDl modn_small //; nia.
rewrite IH //; last by nia.
by rewrite -[in RHS](addn1 m) iotaD rev_cat /= add1n.
Qed.

(** ** Uniform fuel *)
Lemma uniform_fuel (T : eqType) (P : nat -> T -> Prop) (l : seq T) :
  (forall x, x \in l -> exists N, forall fuel, (N <= fuel)%N -> P fuel x) ->
  exists N, forall fuel, (N <= fuel)%N -> forall x, x \in l -> P fuel x.
Proof.
elim: l => [|x l IH] H; first by exists 0%N.
have [|N HN] := IH; first by move=> y Hy; apply: H; rewrite inE Hy orbT.
have [N' HN'] := H x (mem_head _ _).
exists (maxn N N') => fuel; rewrite geq_max => /andP[H1 H2] y; rewrite inE => /orP[/eqP->|Hy].
  exact: HN'.
exact: HN.
Qed.

Lemma mapM_nth (T : eqType) A (f : T -> res A) y0 l ys : mapM f l = Ok ys ->
  forall x, x \in l -> f x = Ok (nth y0 ys (index x l)).
Proof.
elim: l ys => [|x l IH] ys //= H; have [y Ey H1] := bind_Ok_inv H; have [ys' Es [<-]] := bind_Ok_inv H1.
move=> z; rewrite inE eq_sym; case: (x =P z) => [<- _|_ /=] //; exact: IH.
Qed.

Lemma mapM_size S T (f : T -> res S) l ys : mapM f l = Ok ys -> size ys = size l.
Proof.
elim: l ys => [|x l IH] ys /=; first by case=> <-.
by move=> H; have [y Ey H1] := bind_Ok_inv H; have [ys' /IH Es [<-]] := bind_Ok_inv H1; rewrite /= Es.
Qed.

Lemma nth_indexes (T : eqType) A (y0 : A) (l : seq T) ys : uniq l -> size ys = size l ->
  [seq nth y0 ys (index x l) | x <- l] = ys.
Proof.
move=> Hu Hs; apply: (@eq_from_nth _ y0); rewrite size_map // => i Hi.
by case: l Hu Hs Hi => // x0 l Hu Hs Hi; rewrite (nth_map x0) // index_uniq.
Qed.

(** ** Credits *)
Lemma credit_cat kns kns' k : credit (kns ++ kns') k = add_opt (credit kns k) (credit kns' k).
Proof.
by elim: kns => [|kn kns IH]; rewrite ?add_0opt // cat_cons !credit_cons IH add_optA.
Qed.

Lemma credit_flatten (ss : seq (seq (key * nat))) k :
  credit (flatten ss) k = sum_opt [seq credit s k | s <- ss].
Proof. by elim: ss => [|s ss IH] //=; rewrite credit_cat IH. Qed.

Lemma foldl_filter_map (A B C : Type) (P : pred A) (h : A -> B) (reg : C -> B -> C) l s :
  foldl (fun s v => if P v then reg s (h v) else s) s l = foldl reg s [seq h v | v <- l & P v].
Proof. by elim: l s => [|v l IH] s //=; rewrite IH; case: (P v). Qed.

Section Config.
Variables (W S M : nat).
Variable flint : nat -> nat -> flint_field.
Variable is_squarefree : forall p r, seq (ff_field (flint p r)) -> bool.
Variable factor : nat -> nat -> seq nat -> seq (nat * nat).
Hypothesis HMW : (2 * M <= W)%N.
Hypothesis HWS : (W <= S)%N.
Variable c : config.
Hypothesis Hadm : admissible M c.
Hypothesis Hff : flint_fields flint c.
Hypothesis Hfp : flint_polys is_squarefree factor c.

Local Notation p := (g_prime c).
Local Notation r := (g_exponent c).
Local Notation n := (g_count c).
Local Notation gn := (g_genus c).
Local Notation F := (field_of flint c).
Local Notation g := (gen_of flint c).
Local Notation q := #|F|.

Let Hp : prime p. Proof. by case: Hadm => /andP[]. Qed.
Let Hpo : odd p. Proof. by case: Hadm => /andP[]. Qed.
Let Hr : (0 < r)%N. Proof. by case: Hadm => _ /and4P[]. Qed.
Let Hgn : (0 < gn)%N. Proof. by case: Hadm => _ /and4P[]. Qed.
Let Hn : (0 < n)%N. Proof. by case: Hadm => _ /and4P[]. Qed.
Let Hpsz : (0 < g_package c)%N. Proof. by case: Hadm => _ /and4P[]. Qed.
Let Hq : q = (p ^ r)%N. Proof. by case: Hff. Qed.
Let Hg : generator g. Proof. by case: Hff => _ []. Qed.
Let Hgen : (2 * gn + 3 < M)%N. Proof. by case: Hadm. Qed.
Let Hqn : (q ^ n + 1 < M)%N. Proof. by case: Hadm => _ _; rewrite Hq. Qed.
Let Ho : odd q. Proof. by rewrite Hq oddX Hpo orbT. Qed.
Let Hp2 : p != 2%N. Proof. by apply: contraTneq Hpo => ->. Qed.
Let Hq1 : (1 < q)%N := card_gt1 F.

Let Hchar : p \in [char F].
Proof.
have [p' Hp' Hc] := finCharP F; have E := card_primeChar Hc.
have Hd : (p' %| p ^ r)%N.
  by rewrite -Hq E dvdn_exp // lt0n; apply: contraTneq Hq1 => H; rewrite E H.
by move: Hd; rewrite Euclid_dvdX // => /andP[]; rewrite dvdn_prime2 // => /eqP <-.
Qed.
Let HqnW : (2 * q ^ n + 2 < W)%N. Proof. by move: Hqn HMW; slia. Qed.
Let HqW : (2 * q <= W)%N.
Proof. by have : (q ^ 1 <= q ^ n)%N by [rewrite leq_pexp2l // ltnW]; move: HqnW; rewrite expn1; slia. Qed.

(** ** Tables *)
Definition exponents : seq nat := [seq (j * r)%N | j <- rev (iota 1 n)].

Lemma mem_exponents k : (k \in exponents) = [exists j : 'I_n, k == (j.+1 * r)%N].
Proof.
apply/mapP/existsP => [[j]|[j /eqP->]].
  rewrite mem_rev mem_iota => /andP[Hj0 Hj] ->.
  have Hlt : (j.-1 < n)%N by lia.
  by exists (Ordinal Hlt) => /=; rewrite prednK.
by exists j.+1 => //; rewrite mem_rev mem_iota; have := ltn_ord j; lia.
Qed.

Lemma config_exponents_ok fuel : (n <= fuel)%N -> config_exponents W S fuel c = Ok exponents.
Proof.
move=> Hf; have Hlt : (n * r < W)%N.
  have H1 : (r * n < p ^ (r * n))%N by apply: ltn_expl; exact: prime_gt1.
  by move: HqnW; rewrite Hq -expnM; move: H1; rewrite mulnC; move: (p ^ _)%N => x; lia.
rewrite /config_exponents /umul modn_small //; apply: table_exponents_ok => //.
by apply: leq_trans HWS.
Qed.

Lemma thread_table_ok : exists tbl, (forall fuel, (0 < fuel)%N -> thread_table flint fuel c = Ok tbl) /\
  forall e, (e < q)%N -> fq_at tbl e = Ok (elt_of g e).
Proof.
have [|//|tbl [_ H2 H3 _]] := @fq_table_first F (@ff_cand (flint p r)) 0 1 Hg; first by [].
exists tbl; split.
  move=> fuel Hf; rewrite /thread_table -Hq.
  have [|//|tbl' [-> H2' H3' _]] := @fq_table_first F (@ff_cand (flint p r)) 0 fuel Hg; first by [].
  congr Ok; apply: (@eq_from_nth _ 0); first by rewrite H2.
  by move=> i; rewrite H2' => Hi; rewrite H3 // H3'.
by move=> e He; rewrite /fq_at (vgetE 0) ?H2 // H3.
Qed.

Lemma table_call k : k \in exponents ->
  exists t, [/\ forall fuel, (0 < fuel)%N -> mk_redtable flint fuel p k = Ok t, rt_exponent t = k &
    valid_call g p r W (CallCount t)].
Proof.
rewrite mem_exponents => /existsP[j /eqP Ek].
have [|Hco [emb Hc]] := (proj2 (proj2 Hff)) j.+1; first by have := ltn_ord j; lia.
rewrite -Ek in Hco emb Hc *; set K := flint p k in Hco emb Hc *.
have HK : #|ff_field K| = (p ^ k)%N by case: Hco.
have Hk0 : (0 < k)%N by rewrite Ek muln_gt0 Hr.
have HQ : #|ff_field K| = (q ^ j.+1)%N by rewrite HK Ek Hq -expnM mulnC.
have Hle : (q ^ j.+1 <= q ^ n)%N by rewrite leq_pexp2l ?ltn_ord // ltnW.
have HQ2 : (2 < #|ff_field K|)%N.
  have HKo : odd #|ff_field K| by rewrite HQ oddX Ho orbT.
  by move: HKo (card_gt1 (ff_field K)); case: #|_| => [|[|[|m]]].
have Hinc fuel : (0 < fuel)%N -> _ :=
  @inc_table_first _ p k _ Hco (@ff_cand K) 0 fuel HQ2 (proj1 Hc) (fun k H => False_ind _ (notF H)).
have [inc [_ E2 E3]] := Hinc 1%N isT.
exists (RedTable p k (p ^ k) (exponent_reduction_table (p ^ k)) inc); split.
  move=> fuel /Hinc[inc' [E1' E2' E3']]; rewrite /mk_redtable -/K -HK E1' {1}/bind; congr (Ok (RedTable _ _ _ _ _)).
  apply: (@eq_from_nth _ 0%N); first by rewrite E2.
  move=> i; rewrite E2' => Hi; apply: (elt_of_inj (proj1 Hc)); first by case: (E3' i Hi).
    by case: (E3 i Hi).
  by rewrite (proj2 (E3 i Hi)) (proj2 (E3' i Hi)).
- by [].
exists (ff_field K), (@ff_cand K 0%N); split.
  split=> //; first by rewrite Ek dvdn_mull.
    by rewrite HQ; move: HqnW Hle; move: (q ^ _)%N (q ^ _)%N => x y; lia.
  by exists emb.
by split; rewrite //= HK.
Qed.

Lemma thread_redtables_ok : exists tables,
  [/\ forall fuel, (n < fuel)%N -> thread_redtables W S flint fuel c = Ok tables,
      [seq rt_exponent t | t <- tables] = exponents &
      forall call, List.In call [seq CallCount t | t <- tables] -> valid_call g p r W call].
Proof.
have H l : {subset l <= exponents} -> exists tables,
  [/\ forall fuel, (n < fuel)%N -> mapM (mk_redtable flint fuel p) l = Ok tables,
      [seq rt_exponent t | t <- tables] = l &
      forall call, List.In call [seq CallCount t | t <- tables] -> valid_call g p r W call].
  elim: l => [|k l IH] Hl; first by exists [::].
  have [|ts [H1 H2 H3]] := IH; first by move=> x Hx; apply: Hl; rewrite inE Hx orbT.
  have [t [K1 K2 K3]] := table_call (Hl k (mem_head _ _)).
  exists (t :: ts); split.
  - by move=> fuel Hf /=; rewrite K1 ?H1 //; lia.
  - by rewrite /= K2 H2.
  by move=> call /= [<-//|]; apply: H3.
have [ts [H1 H2 H3]] := H exponents (fun x Hx => Hx).
exists ts; split=> // fuel Hf.
by rewrite /thread_redtables config_exponents_ok /= ?H1 // ltnW.
Qed.

(** ** One curve *)
Lemma count_calls cv ts : foldM (run_call W) cv [seq CallCount t | t <- ts] = foldM (count W) cv ts.
Proof. by elim: ts cv => [|t ts IH] cv //=; case: (count W cv t) => //=. Qed.

Lemma exponents_gap m : (forall j, (j < m)%N -> (j.+1 * r)%N \in exponents) -> (m.+1 * r)%N \notin exponents ->
  m = n.
Proof.
move=> H1 H2; case: (ltngtP m n) => // H.
  case/negP: H2; rewrite mem_exponents; apply/existsP; by exists (Ordinal H).
have := H1 _ H; rewrite mem_exponents => /existsP[j /eqP E]; have := ltn_ord j.
have : (n.+1 * r = j.+1 * r)%N by []; move/eqP; rewrite eqn_pmul2r // => /eqP; lia.
Qed.

Section Blocks.
Variables (tbl : seq F) (tables : seq redtable).
Hypothesis Htbl : forall e, (e < q)%N -> fq_at tbl e = Ok (elt_of g e).
Hypothesis Hexp : [seq rt_exponent t | t <- tables] = exponents.
Hypothesis Hcalls : forall call, List.In call [seq CallCount t | t <- tables] -> valid_call g p r W call.

Lemma work_curve_ok v m : all (fun x => (x < q)%N) v -> last 0%N v != q.-1 -> (1 < size v)%N -> (size v <= 2 * gn + 3)%N ->
  (forall pts, multiplicity p q (rhs_support (Curve p r q v pts)) = Ok m) ->
  exists N, forall fuel, (N <= fuel)%N -> forall s,
    work_curve W (flint := flint) is_squarefree factor fuel (c := c) tbl tables s v =
    Ok (if squarefree (poly_of g v) then register s (base_key n (poly_of g v), m) else s).
Proof.
move=> Hall Hl Hs HsM Hm.
have Hcv : curve_over g p r W (Curve p r q v [::]).
  split=> //=; last by rewrite Hs /=; move: Hgen HMW; lia.
  by split=> //; exact: prime_gt1.
have Hne : poly_of g v != 0 := rhs_neq0 Hcv.
have E1 : mk_curve p r (p ^ r) v = Ok (Curve p r q v [::]).
  rewrite -Hq /mk_curve /zero_index; case/lastP: v Hl Hs {Hall HsM Hm Hcv Hne} => [|v x] Hl Hs //.
  by move: Hl; rewrite last_rcons rev_rcons /= => /negbTE->; rewrite /= -rev_rcons revK.
have E2 : has_squarefree_rhs tbl (@is_squarefree p r) (Curve p r q v [::]) = Ok (squarefree (poly_of g v)).
  rewrite /has_squarefree_rhs /rhs_coefficients /=.
  rewrite (@mapM_Ok _ _ _ (elt_of g)); last by move=> x Hx; apply: Htbl; exact: (allP Hall).
  by rewrite /= (proj1 Hfp).
case Esq: (squarefree (poly_of g v)); last first.
  by exists 0%N => fuel _ s; rewrite /work_curve E1 /= E2 /= Esq.
have HsW : (2 * size v < W)%N by move: Hgen HMW; lia.
have Hfac := (proj2 Hfp) v Hall Hs Hl.
have Ex : [seq call_exponent call | call <- [seq CallCount t | t <- tables]] = exponents.
  by rewrite -map_comp -Hexp.
have [cv [n' [N [K1 K2 K3 K4]]]] :=
  key_history (factor := factor p r) Hcv (erefl [::]) HsW Esq Hfac Hcalls.
have En : n' = n by apply: exponents_gap; rewrite -Ex.
have [|cv' [L1 L2 _ _]] := hist_ok Hcv _ Hcalls; first by split.
move: L1; rewrite K1 => -[L1]; subst cv' n'.
exists N => fuel Hf s; rewrite /work_curve E1 {1}/bind E2 {1}/bind Esq /= -count_calls K1 {1}/bind K2 // {1}/bind.
have -> : rhs_support cv = rhs_support (Curve p r q v (c_points cv)).
  by case: (cv) L2 => a b d e f [/= _ _ -> ->].
by rewrite -Hq Hm.
Qed.

Definition kns_of (vs : seq (seq nat)) : seq (key * nat) :=
  [seq (base_key n (poly_of g v), vmult g p v) | v <- vs & squarefree (poly_of g v)].

Lemma foldl_kns vs s :
  foldl (fun s v => if squarefree (poly_of g v) then register s (base_key n (poly_of g v), vmult g p v) else s) s vs
  = foldl register s (kns_of vs).
Proof. exact: foldl_filter_map. Qed.
End Blocks.

(** ** All blocks *)
Lemma vmult_gt0 vs v : enumeration F p W gn (g_marked c) (g_package c) vs -> v \in vs -> (0 < vmult g p v)%N.
Proof.
move=> He Hv; have Hm := vmult_ok Hg Hchar Hp2 HqW Hgn Hpsz r [::] He Hv.
have [Hu Hwf] := wellformed Hp2 HqW Hgn Hpsz He; have [Hd Hall Hl] := Hwf v Hv.
have Hs : rhs_support (Curve p r q v [::]) != [::].
  rewrite /rhs_support -has_filter; apply/hasP; exists (size v).-1 => /=.
    rewrite mem_iota /=; move: Hd; rewrite -degreesE => /(degrees_ge Hgn); case: (size v) => //; lia.
  by rewrite nth_last.
have [m [k [E1 E2 E3]]] := mult_exact p Ho Hq1 Hs.
move: Hm; rewrite E1 => -[<-]; rewrite lt0n; apply/eqP => Em.
by case: E3; rewrite Em muln0 mul0n => /esym/eqP; rewrite ?muln_eq0 ?expn_eq0; have := Hq1; slia.
Qed.

Lemma sum_nat_filter vs (P : pred (seq nat)) (h : seq nat -> nat) :
  (\sum_(v <- vs) h v * P v = sumn [seq h v | v <- vs & P v])%N.
Proof.
elim: vs => [|v vs IH]; first by rewrite big_nil.
by rewrite big_cons IH /=; case: (P v); rewrite ?muln1 ?muln0.
Qed.

Lemma credit_total vs k : enumeration F p W gn (g_marked c) (g_package c) vs ->
  credit (kns_of vs) k =
  if brute_force (F := F) (base_key n) gn (g_marked c) k == 0%N then None
  else Some (brute_force (F := F) (base_key n) gn (g_marked c) k).
Proof.
move=> He; pose kf (f : {poly F}) := if squarefree f then Some (base_key n f) else None.
have Hd0 (f : {poly F}) : (size f).-1 \in requested_degrees gn (g_marked c) -> f != 0.
  by rewrite -degreesE => /(degrees_ge Hgn); rewrite -size_poly_gt0; case: (size f).
have Hsum : brute_force (F := F) (base_key n) gn (g_marked c) k =
    (\sum_(v <- vs) vmult g p v * ((kf (poly_of g v) == Some k) + (omap twist (kf (poly_of g v)) == Some k)))%N.
  rewrite -(weights Hg Hchar Hp2 HqW Hgn Hpsz (key := kf) (tw := omap twist) He).
  - apply: eq_bigr => d _; apply: eq_count => f; by rewrite /kf; case: (squarefree f).
  - by case=> [x|] //=; rewrite twistK.
  - move=> f x a b /Hd0 Hf Hx Ha; rewrite /kf squarefree_affine ?expf_neq0 //.
    by case: (squarefree f) => //; rewrite base_key_affine.
  - move=> f x /Hd0 Hf Hx Hns; have Hn' : ~~ sqnz x.
      by rewrite negb_and negbK; apply/orP; right; apply/existsPn => y; exact: Hns.
    have Hsc : squarefree (x *: f) = squarefree f.
      rewrite /squarefree size_scale //.
      by apply: eq_all => e; apply: eq_all => h; rewrite dvdpZr.
    by rewrite /kf Hsc; case: (squarefree f) => //=; rewrite base_key_twist.
pose A := fun v => squarefree (poly_of g v) && (base_key n (poly_of g v) == k).
pose B := fun v => squarefree (poly_of g v) && (twist (base_key n (poly_of g v)) == k).
have HA v : (kf (poly_of g v) == Some k) = A v by rewrite /kf /A; case: (squarefree _).
have HB v : (omap twist (kf (poly_of g v)) == Some k) = B v by rewrite /kf /B; case: (squarefree _).
have {}Hsum : brute_force (F := F) (base_key n) gn (g_marked c) k =
    (sumn [seq vmult g p v | v <- vs & A v] + sumn [seq vmult g p v | v <- vs & B v])%N.
  rewrite Hsum -!sum_nat_filter -big_split /=; apply: eq_bigr => v _; by rewrite HA HB mulnDr.
have Hcr : credit (kns_of vs) k = if has (fun v => A v || B v) vs then
    Some (sumn [seq vmult g p v | v <- vs & A v] + sumn [seq vmult g p v | v <- vs & B v])%N else None.
  rewrite /credit /kns_of !filter_map -!map_comp -!filter_predI has_map has_filter -filter_predI -has_filter.
  congr (if _ then Some (_ + _)%N else None).
  - by apply: eq_has => v /=; rewrite /A /B andbC; case: (squarefree _).
  - by congr (sumn (map _ _)); apply: eq_filter => v /=; rewrite /A andbC.
  - by congr (sumn (map _ _)); apply: eq_filter => v /=; rewrite /B andbC.
rewrite Hcr Hsum.
have Hz (C : pred (seq nat)) : (sumn [seq vmult g p v | v <- vs & C v] == 0%N) = ~~ has C vs.
  have Hpos v : v \in vs -> (0 < vmult g p v)%N by exact: vmult_gt0.
  elim: (vs) Hpos => [|v l IH] Hpos //=.
  have Hv := Hpos v (mem_head _ _); have {}IH := IH (fun u Hu => Hpos u (mem_behead (s := v :: l) Hu)).
  by case: (C v) => //=; rewrite addn_eq0 eqn0Ngt Hv.
by rewrite addn_eq0 !Hz -negb_or -has_predU; case: (has _ _).
Qed.

Lemma size_poly_of_enum vs v : enumeration F p W gn (g_marked c) (g_package c) vs -> v \in vs ->
  [/\ all (fun x => (x < q)%N) v, last 0%N v != q.-1, (1 < size v)%N & (size v <= 2 * gn + 3)%N].
Proof.
move=> He Hv; have [_ /(_ v Hv)[Hd Ha Hl]] := wellformed Hp2 HqW Hgn Hpsz He; split=> //.
  by move: Hd; rewrite -degreesE => /(degrees_ge Hgn); case: (size v) => // -[].
have : ((size v).-1 <= 2 * gn + 2)%N.
  move: Hd; rewrite /requested_degrees; case: (g_marked c); rewrite !inE; first by move=> /eqP->; slia.
  by case/orP => /eqP->; slia.
by slia.
Qed.

Lemma config_ok : exists boxes kns N, [/\
  forall fuel, (N <= fuel)%N -> config_blocks W fuel c = Ok boxes,
  [/\ uniq boxes, [::] \notin boxes & all (small_bounds M) boxes],
  forall fuel, (N <= fuel)%N -> forall b, b \in boxes ->
    work_block W S is_squarefree factor fuel c b = Ok (foldl register [::] (kns b)),
  forall b kn, b \in boxes -> kn \in kns b ->
    [/\ printable M kn.1, printable M (twist kn.1) & size kn.1.2 = n] &
  forall k, credit (flatten [seq kns b | b <- boxes]) k =
    if brute_force (F := F) (base_key n) gn (g_marked c) k == 0%N then None
    else Some (brute_force (F := F) (base_key n) gn (g_marked c) k)].
Proof.
have [its [boxes [pss [N1 [E1 E2 E3 [Hu Hall] _]]]]] := visited_boxes (g_marked c) Hp2 Hq1 HqW Hgn Hpsz.
have He : enumeration F p W gn (g_marked c) (g_package c) (flatten pss).
  by exists N1 => fuel Hf; rewrite /visited E1 {1}/bind E2 // {1}/bind E3.
have [tbl [T1 T2]] := thread_table_ok; have [tables [R1 R2 R3]] := thread_redtables_ok.
have [N2 HN2] : exists N, forall fuel, (N <= fuel)%N -> forall v, v \in flatten pss -> forall s,
    work_curve W (flint := flint) is_squarefree factor fuel (c := c) tbl tables s v =
    Ok (if squarefree (poly_of g v) then register s (base_key n (poly_of g v), vmult g p v) else s).
  apply: uniform_fuel => v Hv; have [H1 H2 H3 H4] := size_poly_of_enum He Hv.
  apply: (work_curve_ok T2 R2 R3 H1 H2 H3 H4) => pts.
  exact: (vmult_ok Hg Hchar Hp2 HqW Hgn Hpsz r pts He Hv).
pose pos b := nth [::] pss (index b boxes); pose kns b := kns_of (pos b).
have Hsz : size pss = size boxes by have := mapM_size (E3 N1 (leqnn _)).
have Hmem b : b \in boxes -> {subset pos b <= flatten pss}.
  move=> Hb v Hv; apply/flattenP; exists (pos b) => //; apply: mem_nth; by rewrite Hsz index_mem.
exists boxes, kns, (maxn N1 (maxn N2 n.+1)); split.
- move=> fuel; rewrite geq_max => /andP[Hf _]; rewrite /config_blocks -Hq E1 {1}/bind; exact: E2.
- split=> //; first by apply/negP => /(allP Hall).
  apply/allP => b /(allP Hall)/andP[_ Hb]; apply: sub_all Hb => -[l u] /= /andP[Hl Hu'].
  have : (#|F| ^ 1 <= #|F| ^ n)%N by rewrite leq_pexp2l // ltnW.
  by move: Hqn; rewrite expn1; slia.
- move=> fuel; rewrite !geq_max => /and3P[Hf1 Hf2 Hf3] b Hb.
  rewrite /work_block T1; last by slia.
  rewrite {1}/bind R1 // {1}/bind (mapM_nth [::] (E3 _ Hf1) Hb) {1}/bind.
  rewrite -foldl_kns; apply: foldM_Ok => s v Hv; apply: HN2 => //; exact: Hmem Hb _ Hv.
- move=> b kn Hb /mapP[v]; rewrite mem_filter => /andP[_ Hv] -> /=.
  have [H1 H2 H3 H4] := size_poly_of_enum He (Hmem b Hb v Hv).
  have Hs : size (poly_of g v) = size v.
    have Es : size v = (size v).-1.+1 by slia.
    rewrite [RHS]Es; apply: (size_poly_of Hg Es); rewrite /zpos nth_last //.
    by apply: (allP H1); case: (v) H3 => //= x l _; exact: mem_last.
  have HM1 : (1 < M)%N by move: Hgen; slia.
  have HsM : (size (poly_of g v) <= M)%N by rewrite Hs; move: Hgen H4; slia.
  have Hs1 : (1 < size (poly_of g v))%N by rewrite Hs.
  split; [exact: key_printable|exact: printable_twist|by rewrite size_mkseq].
move=> k; rewrite -(credit_total k He); congr (credit _ k).
have Hpos : [seq pos b | b <- boxes] = pss by exact: nth_indexes.
rewrite -[in RHS]Hpos /kns; elim: (boxes) => [|b l IH] //=.
by rewrite IH /kns_of filter_cat map_cat.
Qed.
End Config.
