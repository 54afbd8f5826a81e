(** Proofs about hycu-single: the conversion of typed coefficients and the printed numbers. *)
Set Warnings "-notation-overridden,-ambiguous-paths".
From mathcomp Require Import all_ssreflect ssralg ssrint poly polydiv finalg zmodp finfield zify.
From Verif Require Import Res ResFacts FinField Tables TablesSpec TablesProofs CurveSpec Curve PointSpec PointCount
  CurveProofs PointMath CurveHistory CurveTheorems RamSpec Ramify FieldExt EnumTheorems Config Worker WorkerSpec WorkerProofs
  EndToEnd NormalForm FlintExists Single SingleSpec.

Set Implicit Arguments.
Unset Strict Implicit.
Unset Printing Implicit Defensive.
Import GRing.Theory.
Local Open Scope ring_scope.

(** ** The prime field in coordinates *)
Section Prime.
Variables (F : finFieldType) (p : nat) (coeff : F -> nat -> nat).
Hypothesis Hco : coordinates p 1 coeff.

Let cf (x : F) := coeff x 0%N.
Let Hp1 : (1 < p)%N. Proof. by case: Hco => -[_ ->]. Qed.

Lemma cf_lt x : (cf x < p)%N.
Proof. by case: Hco => _ _ H _ _; exact: H. Qed.

Lemma cf_nat n : cf n%:R = (n %% p)%N.
Proof.
case: Hco => _ _ _ _ [H0 H1 _]; elim: n => [|n IH]; first by rewrite /cf mulr0n H0 mod0n.
by rewrite mulrS /cf H1 -/(cf _) IH -addn1 modnDml addn1.
Qed.

Lemma cf_inj x y : cf x = cf y -> x = y.
Proof. by case: Hco => _ _ _ H _ E; apply: H => -[|i]. Qed.

Lemma cfK x : (cf x)%:R = x.
Proof. by apply: cf_inj; rewrite cf_nat modn_small // cf_lt. Qed.

Lemma char_prime : p \in [char F].
Proof.
have E : (p%:R : F) = 0 by apply: cf_inj; rewrite cf_nat modnn (cf_nat 0) mod0n.
have [p' Hp' Hc] := finCharP F.
have Hd : (p' %| p)%N by rewrite (dvdn_charf Hc) E.
have E' : (p'%:R : F) = 0 by apply/eqP; rewrite -(dvdn_charf Hc).
have : (p' %% p = 0)%N by rewrite -cf_nat E' (cf_nat 0) mod0n.
move=> /eqP Hd2; suff -> : p = p' by [].
by apply/eqP; rewrite eqn_dvd Hd andbT.
Qed.

Lemma cf_mul x y : cf (x * y) = (cf x * cf y %% p)%N.
Proof. by rewrite -cf_nat natrM !cfK. Qed.

(** ** The conversion map *)
Variables (g : F) (W : nat).
Hypothesis Hg : generator g.
Hypothesis HW : (p * cf g <= W)%N.

Let HF : #|F| = p. Proof. by case: Hco => _ -> _ _ _; rewrite expn1. Qed.

Lemma conversion_loop ex : (ex <= p.-1)%N ->
  let s := foldl (conversion_step W p (cf g)) ([:: (0%N, p.-1)], 1%N) (iota 0 ex) in
  [/\ sm_wf s.1, s.2 = cf (g ^+ ex),
      forall e, (e < ex)%N -> sm_find s.1 (cf (g ^+ e)) = Some e, sm_find s.1 0 = Some p.-1 &
      forall k, (p <= k)%N -> sm_find s.1 k = None].
Proof.
elim: ex => [|ex IH] Hex.
  split=> //; first by rewrite expr0 (cf_nat 1) modn_small.
  by move=> k Hk /=; case: eqP Hk => // ->; rewrite leqn0; case: (p) Hp1.
have {IH} := IH (ltnW Hex).
rewrite -[ex.+1]addn1 iotaD foldl_cat /=; set s := foldl _ _ _ => -[H1 H2 H3 H4 H5]; split.
- exact: sm_wf_set.
- suff Hlt : (cf (g ^+ ex) * cf g < W)%N by rewrite H2 /umul (modn_small Hlt) addn1 exprSr cf_mul.
  apply: leq_trans HW; rewrite ltn_pmul2r ?cf_lt // lt0n; apply/eqP => E.
  have : g = 0 by apply: cf_inj; rewrite E (cf_nat 0) mod0n.
  by move/eqP; rewrite (negbTE (gen_neq0 Hg)).
- move=> e; rewrite addn1 ltnS leq_eqVlt sm_find_set // H2.
  case: eqP => [-> _|Hne /= He]; first by rewrite eqxx.
  case: eqP => [/cf_inj E|_]; last exact: H3.
  by have := genX_inj Hg _ _ E; rewrite HF => /(_ (ltn_trans He Hex) Hex).
- rewrite sm_find_set // H2; case: eqP => // E.
  have : g ^+ ex = 0 by apply: cf_inj; rewrite -E (cf_nat 0) mod0n.
  by move/eqP; rewrite (negbTE (genX_neq0 Hg _)).
move=> k Hk; rewrite sm_find_set // H2 H5 //.
by case: eqP => // E; move: Hk; rewrite E leqNgt cf_lt.
Qed.

Lemma conversion_ok c : (c < p)%N ->
  (gp_get (conversion_map W p (cf g)) c < p)%N /\
  elt_of g (gp_get (conversion_map W p (cf g)) c) = c%:R.
Proof.
move=> Hc; have := conversion_loop (leqnn p.-1); rewrite -/(conversion_map _ _ _) => -[_ _ H3 H4 _].
have Ec : cf c%:R = c by rewrite cf_nat modn_small.
rewrite /gp_get; case: (c =P 0%N) => [->|/eqP Hc0].
  by rewrite H4 /elt_of HF eqxx mulr0n; split=> //; case: (p) Hp1.
have Hx : (c%:R : F) != 0.
  by apply: contraNneq Hc0 => E; rewrite -Ec E (cf_nat 0) mod0n.
have [e He Ee] := dlog Hg Hx; rewrite HF in He.
have -> : sm_find (conversion_map W p (cf g)) c = Some e by rewrite -{1}Ec Ee H3.
rewrite /elt_of HF; case: eqP => [E|_]; first by move: He; rewrite E ltnn.
by split=> //; move: He; case: (p) => //= p' H; apply: ltnW.
Qed.

Lemma conversion_large c : (p <= c)%N -> gp_get (conversion_map W p (cf g)) c = 0%N.
Proof.
move=> Hc; have := conversion_loop (leqnn p.-1); rewrite -/(conversion_map _ _ _) => -[_ _ _ _ H5].
by rewrite /gp_get H5.
Qed.

Lemma conversion_one : gp_get (conversion_map W p (cf g)) 1 = 0%N.
Proof.
have := conversion_loop (leqnn p.-1); rewrite -/(conversion_map _ _ _) => -[_ _ H3 _ _].
have := H3 0%N; rewrite expr0 (cf_nat 1) modn_small // /gp_get => -> //.
by case: (p) Hp1 => [|[|]].
Qed.

(** ** The embedding into a field of the same characteristic *)
Variable L : finFieldType.
Hypothesis HL : p \in [char L].

Definition to_L (x : F) : L := (cf x)%:R.

Lemma to_L_nat n : to_L n%:R = n%:R.
Proof. by rewrite /to_L cf_nat {2}(divn_eq n p) natrD natrM (charf0 HL) mulr0 add0r. Qed.

Lemma to_L_rmorph : rmorphism to_L.
Proof.
split.
  move=> x y.
  have E : to_L (x - y) + to_L y = to_L x.
    rewrite -[in RHS](subrK y x); move: (x - y) => z.
    by rewrite -(cfK z) -(cfK y) -natrD !to_L_nat natrD.
  by rewrite -E addrK.
split; last exact: (to_L_nat 1).
by move=> x y; rewrite -(cfK x) -(cfK y) -natrM !to_L_nat natrM.
Qed.

Definition emb_L : {rmorphism F -> L} := RMorphism to_L_rmorph.

Lemma typed_emb cs : map_poly emb_L (typed F cs) = typed L cs.
Proof.
apply/polyP => i; rewrite coef_map !coef_Poly /=.
case: (ltnP i (size cs)) => Hi; first by rewrite !(nth_map 0%N) // to_L_nat.
by rewrite !nth_default ?size_map // (to_L_nat 0).
Qed.
End Prime.

(** ** The program *)
Section Main.
Variables (W M : nat) (flint : nat -> nat -> flint_field) (factor : nat -> nat -> seq nat -> seq (nat * nat)).
Variables (p n : nat).
Hypothesis HMW : (2 * M <= W)%N.
Hypothesis Hp : prime p.
Hypothesis Hpo : odd p.
Hypothesis Hn : (0 < n)%N.
Hypothesis Hpn : (p ^ n + 1 < M)%N.
Hypothesis Htow : prime_tower flint p n.

Local Notation F := (prime_field flint p).
Local Notation g := (prime_gen flint p).
Local Notation cf x := (@ff_coeff (flint p 1) x 0%N).
Hypothesis Hgen : (p * cf g <= W)%N.

Let HF : #|F| = p. Proof. by case: Htow. Qed.
Let Hg : generator g. Proof. by case: Htow => _ []. Qed.
Let Hco : coordinates p 1 (@ff_coeff (flint p 1)).
Proof. by case: Htow => _ [_ /(_ 1%N)]; rewrite Hn => /(_ isT) []. Qed.
Let Hp2 : (2 < p)%N.
Proof. by move: (prime_gt1 Hp) Hpo; case: (p) => [|[|[|m]]]. Qed.

Lemma table_first : exists tbl, (forall fuel, (0 < fuel)%N -> fq_elements fuel p (@ff_cand (flint p 1)) = Ok tbl) /\
  @at_nmod flint p tbl 1 = Ok (cf g).
Proof.
have [|//|tbl [E H2 H3 _]] := @fq_table_first F (@ff_cand (flint p 1)) 0 1 Hg; first by [].
exists tbl; split.
  move=> fuel Hf.
  have [|//|tbl' [E1 H2' H3' _]] := @fq_table_first F (@ff_cand (flint p 1)) 0 fuel Hg; first by [].
  rewrite HF in E1; rewrite E1; congr Ok; apply: (@eq_from_nth _ 0); first by rewrite H2.
  by move=> i; rewrite H2' => Hi; rewrite H3 // H3'.
have Hs : (1 < size tbl)%N by rewrite H2 HF; apply: ltnW.
rewrite /at_nmod (drop_nth 0 Hs) H3; last by rewrite HF ltnW.
by rewrite /elt_of HF; case: eqP => [E1|_]; [move: Hp2; rewrite -ltn_predRL -E1|rewrite expr1].
Qed.

Lemma prime_call k : (0 < k <= n)%N ->
  exists t, [/\ forall fuel, (0 < fuel)%N -> mk_redtable flint fuel p k = Ok t, rt_exponent t = k,
    rt_prime t = p &
    valid_call g p 1 W (CallCount t) /\ valid_call g p 1 W (CallNaive (@ff_cand (flint p k) 0%N) k)].
Proof.
move=> Hk; have [Hk0 Hkn] := andP Hk.
have [Hcok [emb Hc]] := (proj2 (proj2 Htow)) k Hk.
move: Hcok emb Hc; set K := flint p k => Hcok emb Hc.
have HK : #|ff_field K| = (p ^ k)%N by case: Hcok.
have Hle : (p ^ k <= p ^ n)%N by rewrite leq_pexp2l // prime_gt0.
have HQ2 : (2 < #|ff_field K|)%N.
  by rewrite HK; apply: leq_trans Hp2 _; rewrite -{1}(expn1 p) leq_pexp2l // prime_gt0.
have HKW : (2 * #|ff_field K| + 2 < W)%N.
  by rewrite HK; move: Hle Hpn HMW; move: (p ^ k)%N (p ^ n)%N => x y; lia.
have Hext : extension_of g p 1 W k (@ff_cand K 0%N).
  by split=> //; exists emb.
have Hinc fuel : (0 < fuel)%N -> _ :=
  @inc_table_first _ p k _ Hcok (@ff_cand K) 0 fuel HQ2 (proj1 Hc) (fun k H => False_ind _ (notF H)).
have [inc [_ E2 E3]] := Hinc 1%N isT.
exists (RedTable p k (p ^ k) (exponent_reduction_table (p ^ k)) inc); split; [|by []|by []|split; last exact: Hext].
  move=> fuel /Hinc[inc' [E1' E2' E3']]; rewrite /mk_redtable -/K -HK E1' {1}/bind; congr (Ok (RedTable _ _ _ _ _)).
  apply: (@eq_from_nth _ 0%N); first by rewrite E2.
  move=> i; rewrite E2' => Hi; apply: (elt_of_inj (proj1 Hc)); first by case: (E3' i Hi).
    by case: (E3 i Hi).
  by rewrite (proj2 (E3 i Hi)) (proj2 (E3' i Hi)).
by exists (ff_field K), (@ff_cand K 0%N); split=> //; split; rewrite //= HK.
Qed.

(** The loops as a sequence of calls. *)
Definition real (impl : implementation) : bool := if impl is OpenCL then false else true.

Lemma rounds impl ks : real impl -> {subset ks <= iota 1 n} ->
  exists calls, [/\ forall fuel c, (0 < fuel)%N ->
      foldM (count_round W flint fuel p impl) c ks = foldM (run_call W) c calls,
    [seq call_exponent call | call <- calls] = ks &
    forall call, List.In call calls -> valid_call g p 1 W call].
Proof.
move=> Hi; elim: ks => [|k ks IH] Hks; first by exists [::].
have [|calls [H1 H2 H3]] := IH; first by move=> x Hx; apply: Hks; rewrite inE Hx orbT.
have Hk : (0 < k <= n)%N by have := Hks k (mem_head _ _); rewrite mem_iota; lia.
have [t [T1 T2 T3 [T4 T5]]] := prime_call Hk.
pose call := match impl with NaiveNMod | NaiveZech => CallNaive (@ff_cand (flint p k) 0%N) k | _ => CallCount t end.
exists (call :: calls); split.
- move=> fuel c Hf.
  have -> : foldM (count_round W flint fuel p impl) c (k :: ks) =
    bind (count_round W flint fuel p impl c k) (fun c => foldM (count_round W flint fuel p impl) c ks) by [].
  have -> : count_round W flint fuel p impl c k = run_call W c call.
    by rewrite /call; case: (impl) Hi => //= _; rewrite T1.
  have -> : foldM (run_call W) c (call :: calls) = bind (run_call W c call) (fun c => foldM (run_call W) c calls) by [].
  by case: (run_call W c call) => //= c'; exact: H1.
- by rewrite /= H2; congr cons; rewrite /call; case: (impl).
by move=> call' /= [<-|]; [rewrite /call; case: (impl)|exact: H3].
Qed.

(** ** Output *)
Variable cs : seq nat.
Local Notation f := (typed F cs).
Local Notation gn := ((size f).-2./2).
Hypothesis Hcs : all (fun c => (c < p)%N) cs.
Hypothesis Hf : (1 < size f)%N.
Hypothesis HsM : (size cs < M)%N.
Hypothesis Hgn : (gn <= n)%N.
Hypothesis Hfac : prime_factors flint p factor.

Let exps := coeff_exponents (conversion_map W p (cf g)) cs.

Let exps_elt : [seq elt_of g x | x <- exps] = [seq c%:R | c <- cs].
Proof.
rewrite /exps /coeff_exponents -map_comp; apply/eq_in_map => c Hc /=.
by have [_ ->] := conversion_ok Hco Hg Hgen (allP Hcs c Hc).
Qed.

Let exps_lt : all (fun x => (x < #|F|)%N) exps.
Proof.
rewrite HF; apply/allP => x /mapP[c Hc ->].
by have [] := conversion_ok Hco Hg Hgen (allP Hcs c Hc).
Qed.

Lemma single_curve : exists c k, [/\ forall fuel impl, (0 < fuel)%N -> real impl ->
    single_curve_fp W flint fuel p cs impl = foldM (count_round W flint fuel p impl) c (fx_values gn),
    curve_over g p 1 W c, c_points c = [::], poly_of g (c_coeffs c) = f &
    exps = c_coeffs c ++ nseq k p.-1 /\ genus W c = gn].
Proof.
have Hhas : has (fun x => x != #|F|.-1) exps.
  apply: contraTT Hf; rewrite -all_predC => /allP H; rewrite -leqNgt.
  have -> : f = 0.
    apply/polyP => i; rewrite coef0 /typed -exps_elt coef_Poly.
    case: (ltnP i (size exps)) => Hi; last by rewrite nth_default // size_map.
    rewrite (nth_map 0%N) //; have := H _ (mem_nth 0%N Hi).
    by rewrite /= negbK /elt_of => ->.
  by rewrite size_poly0.
have [c [k [E1 [E2 E3 E4 E5] E6 E7 [E8 E9]]]] := @mk_curve_ok F g p 1 exps Hg Hhas.
have Ef : poly_of g exps = f by rewrite /poly_of /typed exps_elt.
rewrite Ef in E8 E9.
have Hsz : size (c_coeffs c) = size f.
  move: E9; rewrite /degree; have : (0 < size (c_coeffs c))%N.
    by case: (c_coeffs c) E8 => // E8; move: Hf; rewrite -E8 /poly_of /= size_poly0.
  by move: Hf; move: (size f) (size (c_coeffs c)) => a b; lia.
have HszW : (size (c_coeffs c) < W)%N.
  have : (size (c_coeffs c) <= size cs)%N.
    by have := congr1 size E6; rewrite size_cat /exps /coeff_exponents size_map; lia.
  by move: HsM HMW; lia.
have Hc : curve_over g p 1 W c.
  split=> //.
  - by rewrite HF; split=> //; rewrite ?expn1 ?prime_gt1.
  - by move: exps_lt; rewrite E6 all_cat => /andP[].
  by rewrite HszW andbT Hsz.
have Hgc : genus W c = gn.
  have Hd : (0 < degree c)%N by rewrite E9; move: Hf; move: (size f) => a; lia.
  have := genusE Hd HszW; rewrite E9; move: Hf; move: (size f) (genus W c) => a b; case: ifP; lia.
have [tbl [T1 T2]] := table_first.
exists c, k; split=> //; last by rewrite HF in E6.
move=> fuel impl Hfu Hi; rewrite /single_curve_fp T1 // {1}/bind T2 {1}/bind -/exps.
rewrite HF in E1; rewrite E1 -Hgc; by case: (impl) Hi.
Qed.

Lemma single_output naivenmod naivezech : ~~ (naivenmod && naivezech) ->
  exists out,
    (forall fuel, (0 < fuel)%N ->
       single_main W flint factor fuel p cs naivenmod naivezech = Ok (Some out)) /\
    [/\ size (o_exponents out) = size f /\
          (forall i, (i < size f)%N -> (nth 0%N (o_exponents out) i < p)%N /\
             elt_of g (nth 0%N (o_exponents out) i) = (nth 0%N cs i)%:R),
        size (o_points out) = gn, size (o_offsets out) = gn,
        forall j (L : finFieldType), (j < gn)%N -> #|L| = (p ^ j.+1)%N ->
          nth (0%N, 0%N) (o_points out) j = true_counts (typed L cs) /\
          nth 0 (o_offsets out) j = (#|L| + 1)%:Z - (curve_points (typed L cs))%:Z &
        squarefree f -> o_ramification out = ramification f].
Proof.
move=> Himpl; have [c [k [E1 Hc Ep Ef [Ee Eg]]]] := single_curve.
have [impl [Hch Hr]] : exists impl, choose_implementation naivenmod naivezech = Some impl /\ real impl.
  by rewrite /choose_implementation (negbTE Himpl); eexists; split; first reflexivity; case: (naivenmod) (naivezech) => -[].
have [|calls [R1 R2 R3]] := @rounds impl (fx_values gn) Hr.
  by move=> x; rewrite mem_rev !mem_iota; move: Hgn; lia.
have [c' [H1 S P Q]] := hist_ok Hc (points_nil _ _ _ _ Ep) R3.
have [S1 S2 S3 S4] := S.
have [|t [T1 T2 T3 _]] := @prime_call 1; first by rewrite Hn.
have Hr1 : c_exponent c = 1%N by case: Hc => _ [].
have Hp1 : c_prime c = p by case: Hc => _ [].
have Egc : genus W c' = gn by rewrite -Eg /genus /degree S4.
have Hq k' : k' \in iota 1 gn -> sm_find (c_points c') k' = Some (base_counts (p ^ k') f).
  by move=> Hk'; rewrite Q Ep /= R2 mem_rev Hk' Ef.
have Hm : multiples 1 gn = iota 1 gn.
  by rewrite /multiples divn1 -[RHS]map_id; apply: eq_map => i; rewrite muln1.
have Hnp : number_of_points c' gn = Ok [seq base_counts (p ^ k) f | k <- iota 1 gn].
  rewrite /number_of_points S2 Hr1 Hm; apply: mapM_Ok => x Hx.
  by rewrite /sm_at Hq.
have Hcv : convert_coeffs W c' t = Ok (c_coeffs c).
  by rewrite /convert_coeffs S1 Hp1 T3 eqxx /= T2 S2 Hr1 S4.
have Hsz : size (c_coeffs c) = size f by rewrite -(rhs_size Hc) Ef.
have Hs2 : ~~ (size cs < 2)%N.
  rewrite -leqNgt; apply: leq_trans Hf _; have := congr1 size Ee.
  by rewrite size_cat /exps /coeff_exponents size_map Hsz; move: (size f) => a; lia.
exists (Output (c_coeffs c) [seq base_counts (p ^ k) f | k <- iota 1 gn] (hasse_weil_offsets W c' gn)
  (ramification_type W (factor p 1%N) c')); split.
  move=> fuel Hfu; rewrite /single_main (negbTE Hs2) Hp /= Hch E1 // R1 // H1 {1}/bind T1 // {1}/bind Hcv {1}/bind.
  by rewrite Egc Hnp.
split=> /=.
- split=> // i Hi.
  have Hi' : (i < size exps)%N by rewrite Ee size_cat Hsz; apply: ltn_addr.
  have Hic : (i < size cs)%N by move: Hi'; rewrite /exps /coeff_exponents size_map.
  have En : nth 0%N (c_coeffs c) i = nth 0%N exps i by rewrite Ee nth_cat Hsz Hi.
  rewrite En; split; first by rewrite -[X in (_ < X)%N]HF; exact: (allP exps_lt _ (mem_nth _ Hi')).
  by rewrite -(nth_map 0%N 0 (fun x => elt_of g x)) // exps_elt (nth_map 0%N).
- by rewrite size_map size_iota.
- by rewrite /hasse_weil_offsets S2 Hr1 Hm size_map size_iota.
- move=> j L Hj HL.
  have HLp : p \in [char L].
    have [p' Hp' Hc'] := finCharP L; have E := card_primeChar Hc'.
    have Hd : (p' %| p ^ j.+1)%N.
      by rewrite -HL E dvdn_exp // lt0n; apply: contraTneq (card_gt1 L) => H; rewrite E H.
    by move: Hd; rewrite Euclid_dvdX // => /andP[]; rewrite dvdn_prime2 // => /eqP <-.
  have Hmem : j.+1 \in iota 1 gn by rewrite mem_iota; move: Hj; move: (gn) => a; lia.
  have Hb : base_counts (p ^ j.+1) f = true_counts (typed L cs).
    by rewrite -(typed_emb Hco HLp) -Ef; apply: (base_as (W := W) (emb_L Hco HLp) Hc).
  split; first by rewrite (nth_map 0%N) ?size_iota // nth_iota // add1n Hb.
  have [c2 [m [N [O1 _ O2 O3 [_ O4]]]]] := offsets Hc Ep R3.
  rewrite H1 in O1; have E2 := Ok_inj O1; subst c2.
  have Em : m = gn.
    rewrite R2 in O2 O3; case: (ltngtP m gn) => // Hlt.
      by case/negP: O3; rewrite muln1 mem_rev mem_iota; move: Hlt; move: (gn) => a; lia.
    by have := O2 _ Hlt; rewrite muln1 mem_rev mem_iota; move: (gn) => a; lia.
  have := O4 j L (emb_L Hco HLp); rewrite Em muln1 Ef (typed_emb Hco HLp) => -> //.
  by rewrite HL HF.
move=> Hsq.
have HW2 : (2 * size (c_coeffs c) < W)%N.
  have : (size (c_coeffs c) <= size cs)%N.
    by have := congr1 size Ee; rewrite size_cat /exps /coeff_exponents size_map; lia.
  by move: HsM HMW; lia.
have Hfc : factorisation (poly_of g (c_coeffs c)) (factor p 1%N (c_coeffs c)).
  have [_ _ Ha Hl /andP[Hs _]] := Hc.
  by rewrite HF in Ha Hl; apply: Hfac.
rewrite -Ef in Hsq *.
have [c2 [O1 O2 _]] := ram_history Hc Ep HW2 Hsq Hfc R3.
by rewrite H1 in O1; have E2 := Ok_inj O1; subst c2.
Qed.

(** Coefficients that are not residues are treated like 1. *)
Lemma single_large ds fuel impl :
  single_curve_fp W flint fuel.+1 p ds impl =
  single_curve_fp W flint fuel.+1 p [seq if (c < p)%N then c else 1%N | c <- ds] impl.
Proof.
have [tbl [T1 T2]] := table_first.
have E ds' : single_curve_fp W flint fuel.+1 p ds' impl =
    if impl is OpenCL then Term
    else bind (mk_curve p 1 p (coeff_exponents (conversion_map W p (cf g)) ds'))
           (fun c => foldM (count_round W flint fuel.+1 p impl) c (fx_values (genus W c))).
  by rewrite /single_curve_fp T1 // {1}/bind T2.
rewrite !E.
suff -> : coeff_exponents (conversion_map W p (cf g)) [seq if (c < p)%N then c else 1%N | c <- ds] =
  coeff_exponents (conversion_map W p (cf g)) ds by [].
rewrite /coeff_exponents -map_comp; apply: eq_map => c /=; case: ltnP => // Hc.
by rewrite (conversion_one Hco Hg Hgen) (conversion_large Hco Hg Hgen Hc).
Qed.
End Main.

Lemma single_main_large W flint factor p n ds fuel naivenmod naivezech : odd p -> (0 < n)%N -> prime_tower flint p n ->
  (p * @ff_coeff (flint p 1) (prime_gen flint p) 0 <= W)%N ->
  single_main W flint factor fuel.+1 p ds naivenmod naivezech =
  single_main W flint factor fuel.+1 p [seq if (c < p)%N then c else 1%N | c <- ds] naivenmod naivezech.
Proof.
move=> Hpo Hn Ht HW; rewrite /single_main size_map; case: ifP => // _.
case Hp: (prime p) => //=; case: choose_implementation => // impl.
by rewrite (single_large Hp Hpo Hn Ht HW).
Qed.

(** ** Fields and factorisations for the concrete cases *)
Lemma prime_tower_exists p n : prime p -> exists flint, prime_tower flint p n.
Proof.
move=> Hp; pose c := Config p 1 1 false n [::] 1.
have [flint [H1 [H2 H3]]] := @flint_exists c Hp isT; exists flint; split; first by rewrite /prime_field H1 /= expn1.
split=> // j Hj; have := H3 j Hj; rewrite /= muln1; exact.
Qed.

Lemma prime_factors_exist flint p n : prime_tower flint p n -> (0 < p)%N -> prime_factors flint p (factor_in flint).
Proof.
move=> [H1 [H2 _]] Hp v Ha Hs Hl; apply: factor_of_ok.
have Es : size v = (size v).-1.+1 by slia.
rewrite -size_poly_gt0 -/(poly_of _ _) (size_poly_of H2 Es) ?/zpos ?nth_last ?H1 //.
by apply: (allP Ha); case: (v) Hs => //= x l _; exact: mem_last.
Qed.

(** ** The counterexamples *)
Lemma typed_1101 (L : fieldType) : size (typed L [:: 1; 1; 0; 1]%N) = 4%N.
Proof. by rewrite /typed (@PolyK _ 0) //= mulr1n oner_eq0. Qed.

Lemma large_wrong W M flint factor : (2 * M <= W)%N -> (25 <= M)%N ->
  prime_tower flint 5 1 -> prime_factors flint 5 factor ->
  exists out, (forall fuel, (0 < fuel)%N -> single_main W flint factor fuel 5 [:: 5; 1; 0; 1]%N false false = Ok (Some out)) /\
    nth (0%N, 0%N) (o_points out) 0 <> true_counts (typed [finFieldType of 'F_5] [:: 5; 1; 0; 1]%N).
Proof.
move=> HMW HM Ht Hf; set F := prime_field flint 5; set cs := [:: 1; 1; 0; 1]%N.
have Hgen : (5 * @ff_coeff (flint 5%N 1%N) (prime_gen flint 5) 0 <= W)%N.
  have [_ [_ /(_ 1%N isT) [[_ _ H _ _] _]]] := Ht.
  have := H (prime_gen flint 5) 0%N; lia.
have Es := typed_1101 F.
have [||||out [H1 [_ _ _ H2 _]]] :=
  @single_output W M flint factor 5 1 HMW isT isT isT _ Ht Hgen cs isT _ _ _ Hf false false isT.
- by rewrite expn1; lia.
- by rewrite Es.
- by rewrite /=; lia.
- by rewrite Es.
exists out; split=> [[//|fuel] _|]; first by rewrite (@single_main_large W flint factor 5 1 _ fuel false false isT isT Ht Hgen) -(H1 fuel.+1).
have [||-> _] := H2 0%N [finFieldType of 'F_5]; rewrite ?Es // ?card_Fp //.
move=> /(congr1 snd) /=; rewrite /ramified_points.
have R c : typed [fieldType of 'F_5] [:: c; 1; 0; 1]%N =
    Poly [:: c%:R : 'F_5; 1; 0; 1].
  by rewrite /typed /= mulr0n mulr1n.
have H0 : #|[set x : 'F_5 | root (typed [fieldType of 'F_5] cs) x]| = 0%N.
  apply: eq_card0 => x; rewrite inE /cs R /root horner_Poly.
  by case: x => -[|[|[|[|[|m]]]]] Hm //; vm_compute.
have Hroot : (0 < #|[set x : 'F_5 | root (typed [fieldType of 'F_5] [:: 5; 1; 0; 1]%N) x]|)%N.
  by rewrite card_gt0; apply/set0Pn; exists 0; rewrite inE R /root horner_Poly; vm_compute.
move: H0 Hroot => -> H; rewrite !add0n; move: H.
have Hs5 : size (typed [fieldType of 'F_5] [:: 5; 1; 0; 1]%N) = 4%N.
  by rewrite /typed (@PolyK _ 0).
rewrite /cs typed_1101 Hs5; set a := #|_| => Ha E.
by have : (odd 4.-1 = a + odd 4.-1 :> nat)%N by []; move: (a) Ha => [|m] //= _; lia.
Qed.

(** The field with two elements. *)
Definition flint2 (_ _ : nat) : flint_field :=
  @FlintField [finFieldType of 'F_2] (fun x i => if i == 0%N then val x else 0%N) (fun _ => 1).

Lemma two_tower : prime_tower flint2 2 1.
Proof.
have H2 : #|[finFieldType of 'F_2]| = 2%N by rewrite card_Fp.
have Hgen1 : generator (1 : 'F_2) by apply: generator_test; [vm_compute|rewrite H2 => -[]].
split; [by []|split; [by []|]].
move=> [|[|j]] // _; split.
  split=> //=.
  - by move=> x [|i]; [have := ltn_ord x|].
  - by move=> x y /(_ 0%N isT) H; apply: val_inj.
  split; [by case|by case=> -[|[|m]] Hm|by []].
exists (GRing.idfun_rmorphism _); split=> //=.
by rewrite expr1n.
Qed.

Lemma two_wrong factor naivenmod naivezech : ~~ (naivenmod && naivezech) ->
  exists out, single_main 1000 flint2 factor 1 2 [:: 1; 1; 0; 1]%N naivenmod naivezech = Ok (Some out) /\
    nth (0%N, 0%N) (o_points out) 0 <> true_counts (typed [finFieldType of 'F_2] [:: 1; 1; 0; 1]%N).
Proof.
move=> Hi; exists (Output [:: 0; 0; 1; 0]%N [:: (4, 1)%N] [:: -2%:Z] [:: 1; 3]%N); split.
  by case: naivenmod naivezech Hi => -[] // _; vm_compute.
set f := typed _ _ => /= -[E1 E2].
have Hs : size f = 4%N by exact: typed_1101.
have Ha : (affine_points f <= 3)%N.
  rewrite /affine_points -ltnS.
  have -> : 4%N = #|[set: 'F_2 * 'F_2]| by rewrite cardsT card_prod card_Fp.
  apply: proper_card; rewrite properE subsetT /=; apply/subsetPn; exists (0, 0); rewrite !inE //=.
  by rewrite /f /typed horner_Poly; vm_compute.
have Hi1 : infinite_points f = 1%N by rewrite /infinite_points Hs.
by move: E1 Ha; rewrite -E2 /curve_points Hi1; move: (affine_points f) => a; lia.
Qed.
